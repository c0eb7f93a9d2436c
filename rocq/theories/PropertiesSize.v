(** C68: sizes.  Nothing the library or the command produces is out of proportion to
    what it was given.  [len] is the number of bytes of a text, [total] the sum of a
    list of numbers, [input_size] the bytes in the named files (SpecSize.v). *)
From Verif Require Import Text GoAst Ast Walk Expand Printer Smt Cmd Parse Path GoParser SpecPrint PrintFacts SpecExpand ExpandFacts SpecSyntax SpecTree
  SpecRun SpecCmd CmdFacts CmdParse SynFile SpecSize SpecErr SpecKill SizeGo SizeFacts PropertiesSmt PropertiesParse PropertiesExpand PropertiesCmd PropertiesKill.
From Coq Require Import Arith Bool Lia.
Open Scope nat_scope.
Open Scope list_scope.

Lemma flat_bad rs : flat_map rule_bad rs = [] <-> Forall (fun r => rule_bad r = []) rs.
Proof.
  induction rs as [|r rs IH]; cbn; [split; constructor|]. split.
  - intros H. apply app_eq_nil in H. destruct H as [H1 H2]. constructor; [exact H1|apply IH; exact H2].
  - intros H. inversion H; subst. rewrite H2. apply IH. assumption.
Qed.

(** A parsed file prints, in at most three times the bytes of its source. *)
Lemma printed_size fn data f : Parse ParseExpr fn data = Ok f -> exists t, Bytes (NFile f) = Ok t /\ len t <= 3 * len data.
Proof.
  intros P. pose proof (parsed_good ParseExpr ParseExpr_never_nil fn data f P) as G.
  apply C02_exact_language in P. destruct P as [_ S]. apply source_size in S. exists (file_text f). split.
  - rewrite Bytes_eq. cbn [node_bad]. assert (flat_map rule_bad (f_rules f) = []) as ->; [|reflexivity].
    apply flat_bad. eapply Forall_impl; [|exact G]. intros r [_ H]. exact H.
  - destruct f as [rs]. exact S.
Qed.
Theorem C68_printed :
  forall fn data f, Parse ParseExpr fn data = Ok f -> exists t, Bytes (NFile f) = Ok t /\ len t <= 3 * len data.
Proof. exact printed_size. Qed.
Print Assumptions C68_printed.

Example C68_printed_example : exists f t, Parse ParseExpr [] (str "x=>(A {a<b})") = Ok f /\ Bytes (NFile f) = Ok t /\
  t = str "x => (A {a < b})" ++ [nl] /\ len (str "x=>(A {a<b})") < len t.
Proof. do 2 eexists. split; [vm_compute; reflexivity|]. split; [vm_compute; reflexivity|]. split; [reflexivity|]. vm_compute. lia. Qed.

(** Expansion: a file with a printed form of [n] bytes becomes at most [n] rules with a
    printed form of at most [n * n] bytes; no rule gets longer than the longest was. *)
Lemma proper_inst_good i r : proper_rule r -> rule_bad r = [] -> rule_bad (rule_inst i r) = [].
Proof. intros P B. apply good_inst. split; assumption. Qed.
Lemma expanded_size f f' t : ExpandAlternates f = Ok (f', None) -> Bytes (NFile f) = Ok t ->
  List.length (f_rules f') <= len t /\
  (exists t', Bytes (NFile f') = Ok t' /\ len t' <= len t * len t) /\
  forall r' u', In r' (f_rules f') -> Bytes (NRule r') = Ok u' ->
    exists r u, In r (f_rules f) /\ Bytes (NRule r) = Ok u /\ len u' <= len u.
Proof.
  intros X B. apply ExpandAlternates_iff in X. destruct X as [P E]. rewrite Bytes_eq in B. cbn [node_bad node_text] in B.
  destruct (flat_map rule_bad (f_rules f)) eqn:Bad; [|discriminate]. injection B as <-. apply flat_bad in Bad.
  destruct f as [rs], f' as [rs']. cbn [f_rules] in *. subst rs'. rewrite file_size.
  set (n := total _). assert (N : n <= n) by lia. unfold n at 1 in N.
  split; [exact (rules_count n rs N)|]. split.
  - exists (file_text (mkFile (flat_map instances rs))). split.
    + rewrite Bytes_eq. cbn [node_bad f_rules]. assert (flat_map rule_bad (flat_map instances rs) = []) as ->; [|reflexivity].
      apply flat_bad. apply Forall_forall. intros r' H. apply in_flat_map in H. destruct H as [r [Hr H]].
      apply in_map_iff in H. destruct H as [i [<- _]]. rewrite Forall_forall in P, Bad. apply proper_inst_good; [apply P|apply Bad]; assumption.
    + rewrite file_size. clear -N. (* every rule takes a line end, which pays for those of its instances *)
      revert N. generalize n. induction rs as [|r rs IH]; intros k N; cbn [flat_map map total] in *; [lia|].
      rewrite map_app, total_app. set (a := len (rule_text r)) in *.
      specialize (IH (k - (a + 1)) ltac:(lia)).
      assert (I : total (map (fun r => len (rule_text r) + 1) (instances r)) <= (a + 1) * (a + 1)).
      { pose proof (instances_size 1 r). fold a in H. nia. }
      assert (Ek : k = (a + 1) + (k - (a + 1))) by lia. set (b := k - (a + 1)) in *. rewrite Ek. nia.
  - intros r' u' H U. apply in_flat_map in H. destruct H as [r [Hr H]]. apply in_map_iff in H. destruct H as [i [<- _]].
    rewrite Forall_forall in Bad. exists r, (rule_text r). split; [exact Hr|].
    rewrite !Bytes_eq in *. cbn [node_bad node_text] in *. rewrite (Bad r Hr). split; [reflexivity|].
    destruct (rule_bad (rule_inst i r)); [|discriminate]. injection U as <-. apply rule_inst_size.
Qed.
Theorem C68_expanded :
  forall f f' t, ExpandAlternates f = Ok (f', None) -> Bytes (NFile f) = Ok t ->
    List.length (f_rules f') <= len t /\
    (exists t', Bytes (NFile f') = Ok t' /\ len t' <= len t * len t) /\
    forall r' u', In r' (f_rules f') -> Bytes (NRule r') = Ok u' ->
      exists r u, In r (f_rules f) /\ Bytes (NRule r) = Ok u /\ len u' <= len u.
Proof. exact expanded_size. Qed.
Print Assumptions C68_expanded.

Example C68_expanded_example : exists t t', Bytes (NFile ex_file) = Ok t /\
  Bytes (NFile (mkFile [ex_alt_inst "8"; ex_alt_inst "16"; ex_plain])) = Ok t' /\ len t < len t'.
Proof. do 2 eexists. split; [vm_compute; reflexivity|]. split; [vm_compute; reflexivity|]. vm_compute. lia. Qed.

(** Less than quadratic is too little: no linear bound holds. *)
Definition wide (k : nat) : rule :=   (* ((a|a|...|a) xx...x) => x *)
  mkRule (SExp (mkSExpr [] (OpcodeParts [PAlt (repeat (str "a") k)]) [] None None [Var (repeat "x"%char k)] false false)) None [] (Var (str "x")).
Lemma wide_groups k : rule_groups (wide k) = [k].
Proof. unfold rule_groups. cbn. rewrite repeat_length. reflexivity. Qed.
Lemma wide_sep k : len (sep_by (str "|") (repeat (str "a") k)) <= 2 * k.
Proof.
  induction k as [|k IH]; [cbn; lia|]. destruct k as [|k]; [cbn; lia|].
  change (sep_by (str "|") (repeat (str "a") (S (S k)))) with (str "a" ++ str "|" ++ sep_by (str "|") (repeat (str "a") (S k))).
  rewrite !app_length. sz. lia.
Qed.
Lemma alt_text l : len (part_text (PAlt l)) <= 2 + len (sep_by (str "|") l).
Proof. destruct l; cbn [part_text]; [cbn; lia|]. rewrite !app_length. sz. lia. Qed.
Lemma wide_text k : len (rule_text (wide k)) <= 3 * k + 10.
Proof.
  unfold rule_text, wide. cbn [r_match r_cond r_block r_result if_set if_given value_text s_binding s_op s_type s_auxint s_aux s_args s_ellipsis s_trailing opcode_text map List.concat when app].
  pose proof (wide_sep k) as A. pose proof (alt_text (repeat (str "a") k)) as B. rewrite !app_nil_r, !app_length, repeat_length. sz. lia.
Qed.
Lemma linear_refuted : ~ exists c, forall f f' t t', ExpandAlternates f = Ok (f', None) -> Bytes (NFile f) = Ok t -> Bytes (NFile f') = Ok t' -> len t' <= c * len t.
Proof.
  intros [c H]. set (k := 4 * c + 12 * S c + 2). set (f := mkFile [wide k]). set (f' := mkFile (instances (wide k))).
  assert (B : forall i, rule_bad (wide k) = [] /\ rule_bad (rule_inst i (wide k)) = []) by (intros; split; reflexivity).
  specialize (H f f' (file_text f) (file_text f')). 
  assert (X : ExpandAlternates f = Ok (f', None)).
  { apply ExpandAlternates_iff. split; [|unfold f, f'; cbn [f_rules flat_map]; rewrite app_nil_r; reflexivity].
    constructor; [|constructor]. split.
    - split; [|exact Logic.I]. cbn. repeat split; [|eexists; left; reflexivity].
      constructor; [|constructor]. cbn. rewrite repeat_length. unfold k. lia.
    - rewrite wide_groups. intros m n [<-|[]] [<-|[]]. reflexivity. }
  specialize (H X). rewrite !Bytes_eq in H. cbn [node_bad node_text f_rules f f'] in H.
  assert (F : flat_map rule_bad (instances (wide k)) = []).
  { apply flat_bad. apply Forall_forall. intros r' I. apply in_map_iff in I. destruct I as [i [<- _]]. apply B. }
  rewrite F in H. specialize (H eq_refl eq_refl). unfold f, f' in H. rewrite !file_size in H. cbn [map total] in H.
  pose proof (wide_text k) as W.
  assert (L : k * k <= total (map (fun r => len (rule_text r) + 1) (instances (wide k)))).
  { unfold instances. rewrite wide_groups. cbn [arity]. rewrite map_map.
    assert (A : forall i, k <= len (rule_text (rule_inst i (wide k))) + 1).
    { intros i. unfold rule_text, wide, rule_inst. cbn [r_match value_inst s_binding s_op s_type s_auxint s_aux s_args s_ellipsis s_trailing map value_text List.concat].
      rewrite !app_length, repeat_length. lia. }
    assert (Q : forall l, List.length l * k <= total (map (fun i => len (rule_text (rule_inst i (wide k))) + 1) l)).
    { induction l as [|i l IH]; cbn [map total List.length]; [lia|]. pose proof (A i). lia. }
    specialize (Q (seq 0 k)). rewrite seq_length in Q. exact Q. }
  assert (k * k <= c * (3 * k + 11)) by nia. unfold k in *. nia.
Qed.
Theorem C68_linear_expansion_refuted :
  ~ exists c, forall f f' t t', ExpandAlternates f = Ok (f', None) -> Bytes (NFile f) = Ok t -> Bytes (NFile f') = Ok t' -> len t' <= c * len t.
Proof. exact linear_refuted. Qed.
Print Assumptions C68_linear_expansion_refuted.

(** Scripts and complaints are in proportion to the rule's text. *)
Lemma script_size r s t : Generate r = Ok s -> Bytes (NRule r) = Ok t -> len s <= 36 * len t + 100.
Proof.
  intros G B. rewrite Bytes_eq in B. cbn [node_bad node_text] in B. destruct (rule_bad r); [|discriminate].
  injection B as <-. apply Generate_size. exact G.
Qed.
Lemma complaint_size r e t : Generate r = Err e -> Bytes (NRule r) = Ok t -> len e <= 12 * len t + 60.
Proof.
  intros G B. rewrite Bytes_eq in B. cbn [node_bad node_text] in B. destruct (rule_bad r) eqn:E; [|discriminate].
  injection B as <-. apply message_size; assumption.
Qed.
Theorem C68_script :
  forall r t, Bytes (NRule r) = Ok t ->
    (forall s, Generate r = Ok s -> len s <= 36 * len t + 100) /\
    (forall e, Generate r = Err e -> len e <= 12 * len t + 60).
Proof. exact (fun r t B => conj (fun s G => script_size r s t G B) (fun e G => complaint_size r e t G B)). Qed.
Print Assumptions C68_script.

Example C68_script_example : (exists s t, Generate ex_sub = Ok s /\ Bytes (NRule ex_sub) = Ok t /\ 5 * len t < len s) /\
  exists e t, Generate (mkRule (node2 "Mul8" (var "x") (var "x")) None [] (var "x")) = Err e /\
    Bytes (NRule (mkRule (node2 "Mul8" (var "x") (var "x")) None [] (var "x"))) = Ok t.
Proof.
  split; [do 2 eexists; split; [vm_compute; reflexivity|]; split; [vm_compute; reflexivity|]; vm_compute; lia|].
  do 2 eexists. split; vm_compute; reflexivity.
Qed.

(** A run over [n] bytes of rules writes at most [3 * n] scripts, of at most
    [324 * n * (n + 1)] bytes together. *)
Lemma run_bounded disk failing outdir names w w' :
  Cmd.run (parse_disk ParseExpr disk) Join failing outdir names w = Exit w' None ->
  exists written, w_files w' = w_files w ++ written /\ List.length written <= 3 * input_size disk names /\
    total (map (fun p => len (snd p)) written) <= 324 * (input_size disk names * (input_size disk names + 1)).
Proof.
  intros R. pose proof (run_cases ParseExpr disk failing outdir names w ParseExpr_never_nil) as C. rewrite R in C.
  destruct C as (rs & l & log & pre & RR & O & F & _). exists l. split; [exact F|].
  exact (run_size _ _ _ _ _ _ _ RR O).
Qed.
Theorem C68_run :
  forall disk failing outdir names w w',
    Cmd.run (parse_disk ParseExpr disk) Join failing outdir names w = Exit w' None ->
    exists written, w_files w' = w_files w ++ written /\ List.length written <= 3 * input_size disk names /\
      total (map (fun p => len (snd p)) written) <= 324 * (input_size disk names * (input_size disk names + 1)).
Proof. exact run_bounded. Qed.
Print Assumptions C68_run.

Example C68_run_example : exists w, ex_run no_failure ex_names = Exit w None /\ List.length (w_files w) = 3 /\ input_size ex_disk ex_names = 99.
Proof. eexists. split; [vm_compute; reflexivity|]. split; vm_compute; reflexivity. Qed.

(** What a run says, at most: a message for each file, three in between, two for each rule. *)
Lemma digits_len c ds : digit c -> c <> "0"%char -> len (c :: ds) <= number (c :: ds).
Proof. intros D Z. pose proof (number_lower c ds D Z). pose proof (Nat.pow_gt_lin_r 10 (len ds) ltac:(lia)). cbn [List.length]. lia. Qed.
Lemma decimal_len n ds : decimal n ds -> len ds <= S n.
Proof.
  intros (D & N & L & Z). destruct ds as [|c ds]; [cbn; lia|]. inversion D; subst.
  destruct (ascii_dec c "0") as [->|Nz].
  - destruct ds as [|x ds]; [cbn; lia|]. elim Z; [discriminate|reflexivity].
  - pose proof (digits_len c ds ltac:(assumption) Nz). lia.
Qed.
Lemma four_len n ds : four_digits n ds -> len ds <= n + 4.
Proof.
  intros (D & N & L & Z). destruct (Nat.le_gt_cases (len ds) 4) as [|G]; [lia|]. specialize (Z G).
  destruct ds as [|c ds]; [cbn; lia|]. inversion D; subst.
  pose proof (digits_len c ds ltac:(assumption) ltac:(intros ->; apply Z; reflexivity)). lia.
Qed.
Lemma clean_size fuel : forall rooted p out dd, len (clean_loop fuel rooted p out dd) <= len out + len p + (if at_end p then 0 else 1).
Proof.
  assert (EL : forall p, let '(e, r) := element p in len p = len e + len r /\ at_end r = true).
  { induction p as [|c p IH]; [cbn; auto|]. cbn [element]. destruct (is_slash c) eqn:S0; [cbn; rewrite S0; split; [lia|reflexivity]|].
    destruct (element p) as [e r]. destruct IH as [IH1 IH2]. cbn. split; [lia|exact IH2]. }
  assert (BT : forall dd out, len (backtrack dd out) <= len out).
  { intros dd. induction out as [|c out IH]; cbn; [lia|]. destruct (_ && _); [|lia]. lia. }
  induction fuel as [|fuel IH]; intros rooted p out dd; [cbn; lia|]. destruct p as [|c p']; [cbn; lia|]. cbn [clean_loop at_end].
  destruct (is_slash c) eqn:S0.
  { specialize (IH rooted p' out dd). destruct (at_end p'); cbn [List.length]; lia. }
  destruct (is_dot c && at_end p') eqn:E1.
  { specialize (IH rooted p' out dd). apply andb_prop in E1. destruct E1 as [_ E1]. rewrite E1 in IH. cbn [List.length]. lia. }
  match goal with |- context [is_dot c && ?b] => destruct (is_dot c && b) eqn:E2 end.
  { destruct p' as [|d p'']; [destruct (is_dot c); discriminate|]. apply andb_prop in E2. destruct E2 as [_ E2]. apply andb_prop in E2. destruct E2 as [_ E2].
    cbn [tl]. destruct (dd <? len out).
    { specialize (IH rooted p'' (backtrack dd out) dd). rewrite E2 in IH. pose proof (BT dd out). cbn [List.length]. lia. }
    destruct rooted; [specialize (IH true p'' out dd); rewrite E2 in IH; cbn [List.length]; lia|].
    set (o2 := "."%char :: _). specialize (IH false p'' o2 (len o2)). rewrite E2 in IH.
    assert (len o2 <= len out + 3). { subst o2. destruct (0 <? len out); cbn [List.length]; lia. }
    cbn [List.length]. lia. }
  set (o2 := if negb _ then _ else _). pose proof (EL (c :: p')) as K. destruct (element (c :: p')) as [e r]. destruct K as [K1 K2].
  specialize (IH rooted r (rev e ++ o2) dd). rewrite K2, app_length, rev_length in IH.
  assert (len o2 <= len out + 1). { subst o2. destruct (negb _); cbn [List.length]; lia. }
  lia.
Qed.
Lemma Clean_len p : len (Clean p) <= len p + 1.
Proof.
  destruct p as [|c p]; [cbn; lia|]. cbn [Clean].
  pose proof (clean_size (len (c :: p)) true p [slash] 1) as A. pose proof (clean_size (len (c :: p)) false (c :: p) [] 0) as B.
  set (o := if is_slash c then _ else _).
  assert (H : len o <= len (c :: p) + 1).
  { subst o. destruct (is_slash c); [|destruct (at_end (c :: p)) in B; cbn [List.length] in *; lia]. destruct (at_end p) in A; cbn [List.length] in *; lia. }
  destruct o as [|x o]; [cbn [str List.length]; cbn; lia|]. rewrite rev_length. exact H.
Qed.
Lemma Join_len a b : len (Join a b) <= len a + len b + 2.
Proof.
  unfold Join. destruct a as [|x a]; [destruct b as [|y b]; [cbn; lia|]; pose proof (Clean_len (y :: b)); cbn [List.length] in *; lia|].
  pose proof (Clean_len ((x :: a) ++ [slash] ++ b)) as H. rewrite !app_length in H. cbn [List.length] in *. lia.
Qed.

(** Messages and their bytes, with a line end each. *)
Definition said (log : list text) : nat := total (map (fun m => len m + 1) log).
Lemma said_app a b : said (a ++ b) = said a + said b.
Proof. unfold said. rewrite map_app, total_app. reflexivity. Qed.
Lemma file_log_size names files log : file_log names files log ->
  said log <= total (map len names) + 30 * List.length names + List.length (List.concat files) /\ List.length log = List.length names.
Proof.
  induction 1 as [|n rs d names files log D _ [IH1 IH2]]; [cbn; lia|]. apply decimal_len in D.
  unfold said in *. cbn [map total List.length List.concat]. rewrite !app_length, !str_size. cbn [String.length]. lia.
Qed.
Lemma load_log_size names files k rs log : load_log names files k rs log ->
  said log <= total (map len names) + 30 * List.length names + 2 * List.length (List.concat files) + List.length k + List.length rs + 80 /\
  List.length log = List.length names + 3.
Proof.
  intros (l & dt & dk & dr & F & T & K & R & ->). apply file_log_size in F. apply decimal_len in T, K, R.
  rewrite said_app, app_length. unfold said at 2. cbn [map total List.length]. rewrite !app_length, !str_size. cbn [String.length]. lia.
Qed.
Lemma clash_log_size names files k log : clash_log names files k log ->
  said log <= total (map len names) + 30 * List.length names + 2 * List.length (List.concat files) + List.length k + 80 /\
  List.length log = List.length names + 2.
Proof.
  intros (l & dt & dk & F & T & K & ->). apply file_log_size in F. apply decimal_len in T, K.
  rewrite said_app, app_length. unfold said at 2. cbn [map total List.length]. rewrite !app_length, !str_size. cbn [String.length]. lia.
Qed.
Lemma w_log_app a b : w_log (a ++ b) = w_log a ++ w_log b.
Proof. unfold w_log. apply flat_map_app. Qed.
Lemma w_log_logged log : w_log (map Logged log) = log.
Proof. induction log as [|m log IH]; [reflexivity|]. unfold w_log in *. cbn. f_equal. exact IH. Qed.
Lemma history_size dir i rs evs : Forall (fun r => rule_bad r = []) rs -> history Generate (Join dir) i rs evs ->
  said (w_log evs) <= total (map (fun r => 13 * len (rule_text r) + 80 + i + List.length rs + len dir) rs) /\
  List.length (w_log evs) = 2 * List.length rs.
Proof.
  intros B H. induction H as [i|i r rs ds s evs G D H IH|i r rs e evs G H IH]; [cbn; lia| |].
  - inversion B as [|? ? B1 B2]; subst. destruct (IH B2) as [IH1 IH2]. apply four_len in D. pose proof (Join_len dir (ds ++ str ".smt2")) as J.
    rewrite app_length, str_size in J. cbn [String.length] in J.
    unfold w_log, said in *. cbn [flat_map app map total List.length]. rewrite !app_length, !str_size. cbn [String.length].
    split; [|lia]. replace (i + S (List.length rs)) with (S i + List.length rs) by lia.
    replace (total (map _ rs)) with (total (map (fun r => 13 * len (rule_text r) + 80 + S i + List.length rs + len dir) rs)).
    2: { f_equal. apply map_ext. intros x. lia. }
    lia.
  - inversion B as [|? ? B1 B2]; subst. destruct (IH B2) as [IH1 IH2]. apply (message_size _ _ B1) in G.
    unfold w_log, said in *. cbn [flat_map app map total List.length]. rewrite !app_length, !str_size. cbn [String.length].
    split; [|lia].
    replace (total (map _ rs)) with (total (map (fun r => 13 * len (rule_text r) + 80 + S i + List.length rs + len dir) rs)).
    2: { f_equal. apply map_ext. intros x. lia. }
    lia.
Qed.
Lemma total_mono {A} (f g : A -> nat) l : (forall a, f a <= g a) -> total (map f l) <= total (map g l).
Proof. intros H. induction l as [|a l IH]; cbn; [lia|]. pose proof (H a). lia. Qed.
Lemma said_rules n rs c : total (map (fun r => len (rule_text r)) rs) <= 9 * (n * n) ->
  total (map (fun r => len (rule_text r) + c) rs) <= 3 * n * (3 * n + c) ->
  total (map (fun r => 13 * len (rule_text r) + c) rs) <= 108 * (n * n) + 3 * n * (3 * n + c).
Proof.
  intros H1 H2. replace (total (map (fun r => 13 * len (rule_text r) + c) rs)) with
    (12 * total (map (fun r => len (rule_text r)) rs) + total (map (fun r => len (rule_text r) + c) rs)); [lia|].
  clear. induction rs as [|r rs IH]; cbn [map total]; lia.
Qed.
Lemma before_size disk before n after : input_size disk before <= input_size disk (before ++ n :: after).
Proof. unfold input_size. rewrite map_app, total_app. lia. Qed.
Lemma names_total (before : list text) n after : total (map len before) <= total (map len (before ++ n :: after)).
Proof. rewrite map_app, total_app. lia. Qed.
Lemma count_total rs c : List.length rs <= total (map (fun r => len (rule_text r) + S c) rs).
Proof. induction rs as [|r rs IH]; cbn; lia. Qed.

(** Every run, successful or not, says at most so much. *)
Theorem C68_log :
  forall disk failing outdir names w w' err,
    Cmd.run (parse_disk ParseExpr disk) Join failing outdir names w = Exit w' err ->
    let n := input_size disk names in
    exists messages, w_log w' = w_log w ++ messages /\
      List.length messages <= List.length names + 6 * n + 4 /\
      total (map (fun m => len m + 1) messages) <= total (map len names) + 30 * List.length names + 3 * n * (42 * n + 84 + len outdir) + 80.
Proof.
  intros disk failing outdir names w w' err R n. pose proof R as R0. apply (C48_history _ _ _ _ _ _ _ _ ParseExpr_never_nil) in R.
  assert (K : forall files k, Forall2 (holds ParseExpr disk) names files -> sifted simple_rule (List.concat files) k ->
    List.length (List.concat files) <= 3 * n /\ List.length k <= 3 * n /\ List.length (flat_map instances k) <= 3 * n /\
    forall c, total (map (fun r => len (rule_text r) + c) (flat_map instances k)) <= 3 * n * (3 * n + c)).
  { intros files k F S0. apply holds_size in F. fold n in F. pose proof (sifted_size _ (fun r => len (rule_text r) + 1) _ _ S0) as S1.
    pose proof (count_total (List.concat files) 0). pose proof (count_total k 0).
    assert (T : total (map (fun r => len (rule_text r) + 1) k) <= 3 * n) by lia.
    repeat split; [lia|lia|apply rules_count; exact T|]. intros c. apply rules_size. exact T. }
  destruct err as [e|].
  - destruct R as [(before & nm & after & files & log & E & F & _ & L & ->)|[(files & k & r & m & m' & log & F & S0 & _ & _ & _ & _ & L & ->)|(files & k & log & pre & r & post & evs & ds & s & part & F & S0 & U & E & L & H & G & D & Fl & ->)]].
    + exists log. rewrite w_log_app, w_log_logged. split; [reflexivity|]. apply file_log_size in L. destruct L as [L1 L2].
      apply holds_size in F. pose proof (before_size disk before nm after) as B1. pose proof (names_total before nm after) as B2. rewrite <- E in *. fold n in B1.
      pose proof (count_total (List.concat files) 0). assert (List.length before <= List.length names) by (rewrite E, app_length; lia).
      fold (said log). split; [lia|]. nia.
    + exists log. rewrite w_log_app, w_log_logged. split; [reflexivity|]. apply clash_log_size in L. destruct L as [L1 L2].
      destruct (K files k F S0) as (K1 & K2 & _). fold (said log). split; [lia|]. nia.
    + exists (log ++ w_log evs ++ [str "rule: " ++ rule_text r]). split.
      { rewrite !w_log_app, w_log_logged. do 3 f_equal. destruct part; reflexivity. }
      destruct (K files k F S0) as (K1 & K2 & K3 & K4). rewrite E in K3, K4. apply load_log_size in L. destruct L as [L1 L2].
      rewrite app_length in K3, L1. cbn [List.length] in K3, L1.
      assert (B : Forall (fun r => rule_bad r = []) pre).
      { assert (RR : run_rules ParseExpr disk names (pre ++ r :: post)) by (exists k; split; [exists files; auto|]; auto).
        apply (run_rules_good ParseExpr ParseExpr_never_nil) in RR. apply Forall_app in RR. eapply Forall_impl; [|apply RR]. cbn. tauto. }
      apply (history_size outdir 0 pre evs B) in H. destruct H as [H1 H2].
      set (c := 80 + len outdir + 3 * n) in *.
      assert (Q : total (map (fun r => 13 * len (rule_text r) + c) (pre ++ r :: post)) <= 108 * (n * n) + 3 * n * (3 * n + c)).
      { apply said_rules; [|apply K4]. pose proof (K4 0) as K40. rewrite (map_ext _ (fun r => len (rule_text r) + 0)) by (intros; lia). lia. }
      assert (H3 : total (map (fun r => 13 * len (rule_text r) + 80 + 0 + List.length pre + len outdir) pre) <= total (map (fun r => 13 * len (rule_text r) + c) pre)).
      { apply total_mono. intros a. unfold c. lia. }
      rewrite map_app, total_app in Q. cbn [map total] in Q.
      rewrite !app_length. fold (said (log ++ w_log evs ++ [str "rule: " ++ rule_text r])). rewrite !said_app. unfold said at 3. cbn [map total List.length].
      rewrite app_length, str_size. cbn [String.length]. split; [lia|]. unfold c in *. nia.
  - destruct R as (files & k & rs & log & evs & F & S0 & U & -> & L & H & ->).
    exists (log ++ w_log evs). split; [rewrite !w_log_app, w_log_logged; reflexivity|].
    destruct (K files k F S0) as (K1 & K2 & K3 & K4). apply load_log_size in L. destruct L as [L1 L2].
    assert (B : Forall (fun r => rule_bad r = []) (flat_map instances k)).
    { assert (RR : run_rules ParseExpr disk names (flat_map instances k)) by (exists k; split; [exists files; auto|]; auto).
      apply (run_rules_good ParseExpr ParseExpr_never_nil) in RR. eapply Forall_impl; [|apply RR]. cbn. tauto. }
    apply (history_size outdir 0 _ evs B) in H. destruct H as [H1 H2].
    set (c := 80 + len outdir + 3 * n) in *.
    assert (Q : total (map (fun r => 13 * len (rule_text r) + c) (flat_map instances k)) <= 108 * (n * n) + 3 * n * (3 * n + c)).
    { apply said_rules; [|apply K4]. pose proof (K4 0) as K40. rewrite (map_ext _ (fun r => len (rule_text r) + 0)) by (intros; lia). lia. }
    assert (H3 : total (map (fun r => 13 * len (rule_text r) + 80 + 0 + List.length (flat_map instances k) + len outdir) (flat_map instances k)) <= total (map (fun r => 13 * len (rule_text r) + c) (flat_map instances k))).
    { apply total_mono. intros a. unfold c. lia. }
    rewrite app_length. fold (said (log ++ w_log evs)). rewrite said_app. split; [lia|]. unfold c in *. nia.
Qed.
Print Assumptions C68_log.

(** A run that ends with an error has written no more than that either, provided a
    failing write leaves a beginning of what it was to write. *)
Theorem C68_failed_run :
  forall disk failing outdir names w w' e,
    (forall p s t e, failing p s = Some (Some t, e) -> exists u, s = t ++ u) ->
    Cmd.run (parse_disk ParseExpr disk) Join failing outdir names w = Exit w' (Some e) ->
    exists written, w_files w' = w_files w ++ written /\ List.length written <= 3 * input_size disk names /\
      total (map (fun p => len (snd p)) written) <= 324 * (input_size disk names * (input_size disk names + 1)).
Proof.
  intros disk failing outdir names w w' e Hf R. pose proof (run_cases ParseExpr disk failing outdir names w ParseExpr_never_nil) as C. rewrite R in C.
  destruct C as [(F & _)|(rs & pre & r & post & l & log & ds & s & part & RR & -> & O & _ & G & D & Fl & F & _)].
  { exists []. rewrite app_nil_r. split; [exact F|]. cbn. lia. }
  exists (l ++ match part with Some p => [(Join outdir (ds ++ str ".smt2"), p)] | None => [] end). split; [exact F|].
  destruct RR as (k & (files & F2 & S0) & _ & E). apply holds_size in F2. set (n := input_size disk names) in *.
  apply (sifted_size _ (fun r => len (rule_text r) + 1)) in S0.
  assert (K : total (map (fun r => len (rule_text r) + 1) k) <= 3 * n) by lia.
  pose proof (rules_count _ _ K) as N. pose proof (rules_size 3 _ _ K) as T. rewrite <- E in N, T. rewrite app_length in N. rewrite map_app, total_app in T. cbn [map total List.length] in N, T.
  apply outputs_size in O. destruct O as [O1 O2]. apply Generate_size in G.
  rewrite app_length, map_app, total_app.
  destruct part as [t|]; [|cbn [map total List.length]; split; [lia|nia]].
  destruct (Hf _ _ _ _ Fl) as [u ->]. rewrite app_length in G. cbn [map total List.length snd]. split; [lia|nia].
Qed.
Print Assumptions C68_failed_run.

(** Witness: 99 bytes of rules; the disk is full while the second script is written. *)
Example C68_failed_run_example :
  (forall p s t e, ex_full p s = Some (Some t, e) -> exists u, s = t ++ u) /\
  exists w e, Cmd.run (parse_disk ParseExpr ex_disk) Join ex_full (str "out/") ex_names [] = Exit w (Some e) /\
    List.length (w_files w) = 2 /\ List.length (w_log w) = 8 /\ total (map (fun m => len m + 1) (w_log w)) = 222.
Proof.
  split.
  - intros p s t e H. unfold ex_full in H. destruct (text_eqb p _); [|discriminate]. injection H as <- _. exists (skipn 10 s). symmetry. exact (firstn_skipn 10 s).
  - do 2 eexists. split; [vm_compute; reflexivity|]. split; [vm_compute; reflexivity|]. split; [vm_compute; reflexivity|]. vm_compute. reflexivity.
Qed.
