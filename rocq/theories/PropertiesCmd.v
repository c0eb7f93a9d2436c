(** Properties of the command (C43-C48).  Vocabulary: SpecCmd.v, SpecRun.v, and
    SpecSyntax.v for what a source means.  [gp] is any behaviour of
    go/parser.ParseExpr that returns no tree with a missing part; [disk] is what the
    file system holds, [failing] how writing fails, if it does. *)
From Verif Require Import Text GoAst Ast Expand Printer Parse GoParser Smt Cmd Path SpecTree TreeFacts SpecExpand ExpandFacts
  SpecPrint PrintFacts SpecSmt SpecUtf8 SpecSyntax SpecTrees SpecCmd SpecErr SpecRun SynFile SynShape ParseFacts ParseUse CmdFacts CmdRun CmdParse SmtSem PropertiesSmt.
From Coq Require Import NArith Arith Lia Bool.
From Verif Require Import Cmd.

(** The proviso on the Go parser holds of the reference model. *)
Theorem C43_go_parser : never_nil ParseExpr.
Proof. exact ParseExpr_never_nil. Qed.
Print Assumptions C43_go_parser.

Section Run.
  Variable gp : text -> res gexpr.
  Hypothesis whole : never_nil gp.
  Variable disk : text -> on_disk.
  Let pf := parse_disk gp disk.
  Let np : forall n m, pf n <> Panic m := disk_no_panic gp disk.
  Let gd : forall n f, pf n = Ok f -> Forall good_rule (f_rules f) := disk_good gp whole disk.

  Lemma load_exact names w :
    w_files (fst (load pf names w)) = w_files w /\
    (forall f, snd (load pf names w) = Ok f <-> run_rules gp disk names (f_rules f)) /\
    (forall m, snd (load pf names w) <> Panic m).
  Proof.
    destruct (load_spec pf np gd names w) as [W L]. split; [exact W|].
    destruct (snd (load pf names w)) as [g|e|m]; [..|contradiction].
    - split; [|discriminate]. destruct L as (k & Lk & U & E). intros f. split.
      + intros H. inversion H; subst. exists k. split; [apply loaded_simple; exact Lk|]. auto.
      + intros (k' & S & U' & E'). apply loaded_simple in S. assert (k' = k) as -> by (eapply load_fun; eassumption).
        destruct f as [a], g as [b]. cbn [f_rules] in *. congruence.
    - split; [|discriminate]. intros f. split; [discriminate|]. intros (k & S & U & _). exfalso.
      destruct L as [(pre & n & post & e' & -> & _ & E & _)|(k' & pre & r & post & m & n & Lk & -> & _ & Im & In_ & Ne & _)].
      + destruct S as (files & F & _). apply Forall2_app_inv_l in F. destruct F as (a & b & _ & F & _). inversion F; subst.
        match goal with X : holds _ _ n ?y |- _ => assert (pf n = Ok (mkFile y)) by (apply disk_ok; exact X) end. congruence.
      + apply loaded_simple in S. assert (k = pre ++ r :: post) as -> by (eapply load_fun; eassumption).
        rewrite Forall_forall in U. apply Ne. apply (U r); [apply in_app_iff; right; left; reflexivity|assumption..].
  Qed.

  Lemma run_rules_good names rs : run_rules gp disk names rs -> Forall (fun r => simple_rule r /\ plain_rule r /\ rule_bad r = []) rs.
  Proof.
    intros (k & S & U & ->). pose proof S as S'. apply loaded_simple in S'. pose proof (loaded_good pf gd names k S') as G. destruct S as (files & _ & Sf).
    apply Forall_forall. intros r I. apply in_flat_map in I. destruct I as (r0 & I0 & I). unfold instances in I. apply in_map_iff in I. destruct I as (i & <- & _).
    rewrite Forall_forall in G. pose proof (G r0 I0) as G0. apply (sifted_incl _ _ _ Sf) in I0. split; [apply simple_inst; apply I0|].
    split; [apply rule_inst_plain; apply G0|apply good_inst; exact G0].
  Qed.
End Run.

(** * C43: what is loaded *)
Theorem C43_loads_simple_rules :
  forall gp disk names w, never_nil gp ->
    w_files (fst (load (parse_disk gp disk) names w)) = w_files w /\
    (forall f, snd (load (parse_disk gp disk) names w) = Ok f <-> run_rules gp disk names (f_rules f)) /\
    (forall m, snd (load (parse_disk gp disk) names w) <> Panic m).
Proof. intros gp disk names w W. exact (load_exact gp W disk names w). Qed.
Print Assumptions C43_loads_simple_rules.
Theorem C43_loaded_are_simple_and_expanded :
  forall gp disk names w f, never_nil gp -> snd (load (parse_disk gp disk) names w) = Ok f -> Forall (fun r => simple_rule r /\ plain_rule r) (f_rules f).
Proof. intros gp disk names w f W L. destruct (load_exact gp W disk names w) as (_ & X & _). apply X in L. rename L into H. set (rs := f_rules f) in *. eapply Forall_impl; [|exact (run_rules_good gp W disk names rs H)]. cbn. tauto. Qed.
Print Assumptions C43_loaded_are_simple_and_expanded.

(** Witness: two files; one rule has a condition, one has alternatives. *)
Definition ex_disk (name : text) : on_disk :=
  if text_eqb name (str "a.rules") then Holds (str "(Sub(8|16) x x) => (Xor(8|16) x x)" ++ [nl] ++ str "(Add8 x y) && x == y => x" ++ [nl])
  else if text_eqb name (str "b.rules") then Holds (str "(Frob x) => x" ++ [nl] ++ str "(Add8 x y) => (Add8 y x)")
  else if text_eqb name (str "c.rules") then Holds (str "(Add8 x")
  else OpenFails (str "open: no such file").
Definition ex_world : world := [].
Definition ex_run (failing : text -> text -> option (option text * text)) (names : list text) : outcome :=
  run (parse_disk ParseExpr ex_disk) Join failing (str "out/") names ex_world.
Definition ex_names : list text := [str "a.rules"; str "b.rules"].
Definition ex_op2 (c : string) (a b : value) : value := SExp (mkSExpr [] (Opcode (str c)) [] None None [a; b] false false).
Definition ex_loaded : list rule :=
  let x := Var (str "x") in let y := Var (str "y") in
  [ mkRule (ex_op2 "Sub8" x x) None [] (ex_op2 "Xor8" x x); mkRule (ex_op2 "Sub16" x x) None [] (ex_op2 "Xor16" x x);
    mkRule (SExp (mkSExpr [] (Opcode (str "Frob")) [] None None [x] false false)) None [] x;
    mkRule (ex_op2 "Add8" x y) None [] (ex_op2 "Add8" y x) ].
Example C43_example : run_rules ParseExpr ex_disk ex_names ex_loaded.
Proof.
  assert (E : exists f, snd (load (parse_disk ParseExpr ex_disk) ex_names ex_world) = Ok f /\ f_rules f = ex_loaded)
    by (eexists; split; vm_compute; reflexivity).
  destruct E as (f & E & <-). apply (proj1 (proj2 (C43_loads_simple_rules _ _ _ _ C43_go_parser))) in E. exact E.
Qed.

(** * C44, C45: what a run leaves *)
Lemma run_cases gp disk failing outdir names w : never_nil gp ->
  match run (parse_disk gp disk) Join failing outdir names w with
  | Exit w' None => exists rs l log pre, run_rules gp disk names rs /\ outputs Generate (Join outdir) 0 rs l log /\
      w_files w' = w_files w ++ l /\ w_log w' = pre ++ log /\ pre = w_log (fst (load (parse_disk gp disk) names w)) /\
      Forall (fun ps => failing (fst ps) (snd ps) = None) l
  | Exit w' (Some e) =>
      (w_files w' = w_files w /\ snd (load (parse_disk gp disk) names w) = Err e /\ w' = fst (load (parse_disk gp disk) names w)) \/
      exists rs pre r post l log ds s part, run_rules gp disk names rs /\
        rs = pre ++ r :: post /\ outputs Generate (Join outdir) 0 pre l log /\
        Forall (fun ps => failing (fst ps) (snd ps) = None) l /\
        Generate r = Ok s /\ four_digits (List.length pre) ds /\
        failing (Join outdir (ds ++ str ".smt2")) s = Some (part, e) /\
        w_files w' = w_files w ++ l ++ match part with Some p => [(Join outdir (ds ++ str ".smt2"), p)] | None => [] end /\
        w_log w' = w_log (fst (load (parse_disk gp disk) names w)) ++ log ++ [str "rule: " ++ rule_text r]
  | Crash _ _ => False
  end.
Proof.
  intros W. destruct (load_exact gp W disk names w) as (Wf & Ok_ & Np). unfold run.
  destruct (load (parse_disk gp disk) names w) as [w1 r] eqn:L. cbn [fst snd] in *. destruct r as [f|e|m]; [|left; auto|destruct (Np m eq_refl)].
  assert (R : run_rules gp disk names (f_rules f)) by (apply Ok_; reflexivity).
  assert (B : Forall (fun r => rule_bad r = []) (f_rules f)) by (eapply Forall_impl; [|exact (run_rules_good gp W disk names _ R)]; cbn; tauto).
  pose proof (gen_loop_spec Join failing outdir (f_rules f) 0 w1 B) as G.
  destruct (gen_loop Join failing outdir 0 (f_rules f) w1) as [w' [e|]|w' m]; [..|exact G].
  - right. destruct G as (pre & r & post & l & log & ds & s & part & E & O & F & Gn & D & Fl & Wf' & Wl). rewrite Wf in Wf'.
    exists (f_rules f), pre, r, post, l, log, ds, s, part. auto 10.
  - destruct G as (l & log & O & Wf' & Wl & F). rewrite Wf in Wf'. exists (f_rules f), l, log, (w_log w1). auto 10.
Qed.

Lemma outputs_exact outdir rs l log : outputs Generate (Join outdir) 0 rs l log ->
  forall p s, In (p, s) l <-> exists i r ds, nth_error rs i = Some r /\ Generate r = Ok s /\ four_digits i ds /\ p = Join outdir (ds ++ str ".smt2").
Proof.
  intros O p s. split.
  - intros I. destruct (outputs_names _ _ _ _ _ O p s I) as (j & ds & r & A & B & C & N & E). exists j, r, ds.
    rewrite Nat.sub_0_r in N. auto.
  - intros (i & r & ds & N & G & D & ->). exact (outputs_complete _ _ _ _ _ O i r s ds N G D).
Qed.

Theorem C44_output_files :
  forall gp disk failing outdir names w w', never_nil gp ->
    run (parse_disk gp disk) Join failing outdir names w = Exit w' None ->
    exists rs written, run_rules gp disk names rs /\ w_files w' = w_files w ++ written /\ NoDup (map fst written) /\
      forall p s, In (p, s) written <->
        exists i r ds, nth_error rs i = Some r /\ Generate r = Ok s /\ four_digits i ds /\ p = Join outdir (ds ++ str ".smt2").
Proof.
  intros gp disk failing outdir names w w' W H. pose proof (run_cases gp disk failing outdir names w W) as R. rewrite H in R.
  destruct R as (rs & l & log & pre & Rr & O & Wf & _). exists rs, l. split; [exact Rr|]. split; [exact Wf|].
  split; [exact (outputs_nodup _ _ _ _ _ O)|exact (outputs_exact _ _ _ _ O)].
Qed.
Print Assumptions C44_output_files.
(** Numbering: a name for every index, one only, and not that of another index. *)
Theorem C44_names :
  (forall i, exists ds, four_digits i ds /\ forall ds', four_digits i ds' -> ds' = ds) /\
  (forall outdir i j ds es, four_digits i ds -> four_digits j es ->
     Join outdir (ds ++ str ".smt2") = Join outdir (es ++ str ".smt2") -> i = j) /\
  (forall outdir, exists prefix, forall i ds, four_digits i ds -> Join outdir (ds ++ str ".smt2") = prefix ++ ds ++ str ".smt2").
Proof.
  split; [|split].
  - intros i. exists (dec4 i). split; [apply dec4_four|]. intros ds' H. eapply four_digits_unique; [exact H|apply dec4_four].
  - intros. eapply names_distinct; eassumption.
  - intros outdir. destruct (join_plain outdir) as [pre H]. exists pre. intros i ds (D & _ & L & _). apply H. apply digits_plain; assumption.
Qed.
Print Assumptions C44_names.
Definition no_failure (_ _ : text) : option (option text * text) := None.
Example C44_example : exists w, ex_run no_failure ex_names = Exit w None /\
  map fst (w_files w) = [str "out/0000.smt2"; str "out/0001.smt2"; str "out/0003.smt2"].
Proof. eexists. split; vm_compute; reflexivity. Qed.

(** A run never crashes; it succeeds exactly if the files can be read, the groups of
    each rule agree, and every write succeeds. *)
Theorem C45_never_crashes :
  forall gp disk failing outdir names w w' m, never_nil gp -> run (parse_disk gp disk) Join failing outdir names w <> Crash w' m.
Proof.
  intros gp disk failing outdir names w w' m W H. pose proof (run_cases gp disk failing outdir names w W) as R. rewrite H in R. exact R.
Qed.
Print Assumptions C45_never_crashes.
Theorem C45_success_iff :
  forall gp disk failing outdir names w, never_nil gp ->
    (exists w', run (parse_disk gp disk) Join failing outdir names w = Exit w' None) <->
    exists rs, run_rules gp disk names rs /\
      forall i r s ds, nth_error rs i = Some r -> Generate r = Ok s -> four_digits i ds -> failing (Join outdir (ds ++ str ".smt2")) s = None.
Proof.
  intros gp disk failing outdir names w W. pose proof (run_cases gp disk failing outdir names w W) as R. split.
  - intros [w' H]. rewrite H in R. destruct R as (rs & l & log & pre & Rr & O & _ & _ & _ & F). exists rs. split; [exact Rr|].
    intros i r s ds N G D. rewrite Forall_forall in F. specialize (F (Join outdir (ds ++ str ".smt2"), s)). cbn in F. apply F.
    apply (outputs_exact _ _ _ _ O). eauto 7.
  - intros (rs & Rr & F). destruct (run (parse_disk gp disk) Join failing outdir names w) as [w' [e|]|]; [exfalso|eauto|contradiction].
    destruct R as [(_ & L & _)|(rs' & pre & r & post & l & log & ds & s & part & Rr' & -> & O & _ & G & D & Fl & _)].
    + apply (proj1 (proj2 (load_exact gp W disk names w)) (mkFile rs)) in Rr. cbn in Rr. congruence.
    + assert (pre ++ r :: post = rs) as <-.
      { apply (proj1 (proj2 (load_exact gp W disk names w)) (mkFile rs)) in Rr. apply (proj1 (proj2 (load_exact gp W disk names w)) (mkFile (pre ++ r :: post))) in Rr'. congruence. }
      rewrite (F (List.length pre) r s ds) in Fl; [discriminate| |assumption..]. rewrite nth_error_app2, Nat.sub_diag by auto. reflexivity.
Qed.
Print Assumptions C45_success_iff.
(** A failed run: loading failed and nothing was written, or writing the script of
    rule number [length pre] failed: those before are there, nothing after. *)
Theorem C45_errors_stop_cleanly :
  forall gp disk failing outdir names w w' e, never_nil gp ->
    run (parse_disk gp disk) Join failing outdir names w = Exit w' (Some e) ->
    (w_files w' = w_files w /\
      ((exists before n after e', names = before ++ n :: after /\ Forall (fun n => exists rs, holds gp disk n rs) before /\ e = str "parse: " ++ e' /\
          (disk n = OpenFails e' \/ disk n = ReadFails e' \/ (exists b, disk n = CloseFails b e') \/ (exists b, disk n = Holds b /\ Parse gp n b = Err e'))) \/
       (exists k before r after m n, simple_of gp disk names k /\ k = before ++ r :: after /\ Forall (fun r => uniform (rule_groups r)) before /\
          In m (rule_groups r) /\ In n (rule_groups r) /\ m <> n /\ e = clash m n))) \/
    (exists rs pre r post written ds s part, run_rules gp disk names rs /\ rs = pre ++ r :: post /\
      Generate r = Ok s /\ four_digits (List.length pre) ds /\ failing (Join outdir (ds ++ str ".smt2")) s = Some (part, e) /\
      (forall p s, In (p, s) written <->
        exists i r ds, nth_error pre i = Some r /\ Generate r = Ok s /\ four_digits i ds /\ p = Join outdir (ds ++ str ".smt2")) /\
      w_files w' = w_files w ++ written ++ match part with Some p => [(Join outdir (ds ++ str ".smt2"), p)] | None => [] end).
Proof.
  intros gp disk failing outdir names w w' e W H. pose proof (run_cases gp disk failing outdir names w W) as R. rewrite H in R.
  destruct R as [(Wf & L & _)|(rs & pre & r & post & l & log & ds & s & part & Rr & E & O & F & G & D & Fl & Wf & _)].
  - left. split; [exact Wf|]. destruct (load_spec _ (disk_no_panic gp disk) (disk_good gp W disk) names w) as [_ S]. rewrite L in S.
    destruct S as [(before & n & after & e' & E & F & P & ->)|(k & before & r & after & m & n & Lk & X)].
    + left. exists before, n, after, e'. split; [exact E|]. split; [|split; [reflexivity|apply disk_err; exact P]].
      eapply Forall_impl; [|exact F]. cbn. intros x (f & Hx). exists (f_rules f). apply disk_ok. exact Hx.
    + right. exists k, before, r, after, m, n. split; [apply loaded_simple; exact Lk|exact X].
  - right. exists rs, pre, r, post, l, ds, s, part. repeat (split; [assumption|]). split; [exact (outputs_exact _ _ _ _ O)|exact Wf].
Qed.
Print Assumptions C45_errors_stop_cleanly.
(** Seen from outside: exit status and standard error. *)
Theorem C45_exit_status :
  forall gp disk failing outdir names w, never_nil gp ->
    let o := run (parse_disk gp disk) Join failing outdir names w in
    (p_status (main_ o) = 0 /\ (exists w', o = Exit w' None) \/ p_status (main_ o) = 1 /\ (exists w' e, o = Exit w' (Some e)))%nat.
Proof.
  intros gp disk failing outdir names w W o. pose proof (run_cases gp disk failing outdir names w W) as R. subst o.
  destruct (run (parse_disk gp disk) Join failing outdir names w) as [w' [e|]|]; [right|left|contradiction]; eauto.
Qed.
Print Assumptions C45_exit_status.
Example C45_example :
  (exists w e, ex_run no_failure [str "a.rules"; str "c.rules"] = Exit w (Some e) /\ w_files w = []) /\
  (exists w, ex_run (fun p s => if text_eqb p (str "out/0001.smt2") then Some (Some (firstn 10 s), str "disk full") else None) ex_names = Exit w (Some (str "disk full")) /\
     map fst (w_files w) = [str "out/0000.smt2"; str "out/0001.smt2"]).
Proof. split; eexists; [eexists|]; split; vm_compute; reflexivity. Qed.

(** * C46: complaints about loaded rules *)
Theorem C46_only_these_complaints :
  forall gp disk names w f r e, never_nil gp -> snd (load (parse_disk gp disk) names w) = Ok f -> In r (f_rules f) -> Generate r = Err e ->
    complains (r_match r) e \/ complains (r_result r) e.
Proof.
  intros gp disk names w f r e W L I G. destruct (load_exact gp W disk names w) as (_ & X & _). apply X in L. rename L into R. set (rs := f_rules f) in *. pose proof (run_rules_good gp W disk names rs R) as F. rewrite Forall_forall in F.
  destruct (F r I) as (S & P & B). exact (generate_complains r e P S B G).
Qed.
Print Assumptions C46_only_these_complaints.
Example C46_example : exists r e, nth_error ex_loaded 2 = Some r /\ Generate r = Err e /\ e = not_supported (str "opcode Frob").
Proof. eexists _, _. split; [reflexivity|]. split; vm_compute; reflexivity. Qed.

(** * C47: end to end *)
Lemma in_texts_iff x l : in_texts x l = true <-> In x (map str l).
Proof.
  unfold in_texts. rewrite existsb_exists, in_map_iff. split; intros (s & A & B); exists s.
  - apply text_eqb_eq in B. auto.
  - split; [exact B|]. apply text_eqb_eq. auto.
Qed.
Lemma word_symbol c : word_char c -> symbol_char c = true.
Proof.
  unfold symbol_char, SpecSmt.digit, letter. intros [->|[H|[H|H]]]; [reflexivity|rewrite H..]; rewrite ?orb_true_r; reflexivity.
Qed.
Lemma untaken_legal lenient x : ident x \/ x = str "_" -> ~ taken lenient x -> legal_name lenient x = true.
Proof.
  intros I T. unfold legal_name, symbol_ok.
  assert (S : simple_symbol x = true).
  { destruct I as [(c & t & -> & L & F)| ->]; [|reflexivity]. unfold simple_symbol. cbn [forallb]. 
    assert (W : forallb symbol_char t = true) by (apply forallb_forall; intros d Hd; apply word_symbol; rewrite Forall_forall in F; auto).
    rewrite W, (word_symbol c) by (right; left; exact L). unfold lower in L. 
    assert (N : SpecSmt.digit c = false /\ c <> "@"%char /\ c <> "."%char).
    { repeat split; [|intros ->; discriminate L..]. revert L. unfold SpecSmt.digit. clear. destruct c as [[] [] [] [] [] [] [] []]; vm_compute; congruence. }
    destruct N as (N & A & D). rewrite N.
    destruct (text_eqb_spec [c] (str "@")) as [E|]; [inversion E; congruence|].
    destruct (text_eqb_spec [c] (str ".")) as [E|]; [inversion E; congruence|]. reflexivity. }
  rewrite S. cbn [andb].
  destruct (in_texts x reserved) eqn:R; destruct (in_texts x theory_symbols) eqn:Th; try reflexivity.
  - exfalso. apply T. apply in_texts_iff in R, Th. split; [rewrite map_app; apply in_app_iff; auto|]. intros [_ ->]. vm_compute in Th. intuition discriminate.
  - apply in_texts_iff in R. destruct (lenient && text_eqb x (str "_")) eqn:E; [reflexivity|]. exfalso. apply T. split; [rewrite map_app; apply in_app_iff; auto|].
    intros [-> ->]. discriminate E.
  - exfalso. apply in_texts_iff in Th. apply T. split; [rewrite map_app; apply in_app_iff; auto|]. intros [_ ->]. vm_compute in Th. intuition discriminate.
Qed.
Lemma value_vars_inst i v : value_vars (value_inst i v) = value_vars v.
Proof.
  induction v as [s IH|e|x|] using value_ind'; cbn [value_inst value_vars s_args]; auto.
  induction IH as [|a l Ha F IHl]; [reflexivity|]. cbn [map flat_map]. rewrite Ha, IHl. reflexivity.
Qed.
Lemma lex_vars v : lex_value v -> Forall (fun x => ident x \/ x = str "_") (value_vars v).
Proof.
  induction v as [s IH|e|x|] using value_ind'; cbn [lex_value value_vars]; auto; try contradiction.
  rewrite fold_and_Forall. intros (_ & _ & _ & L). induction IH as [|a l Ha F IHl]; [constructor|]. inversion L; subst. cbn [flat_map]. apply Forall_app. auto.
Qed.
Lemma source_legal lenient gp disk name frs r0 i : never_nil gp -> holds gp disk name frs -> In r0 frs ->
  Forall (fun x => ~ taken lenient x) (rule_vars r0) -> Forall (fun x => legal_name lenient x = true) (rule_vars (rule_inst i r0)).
Proof.
  intros W Hh Ir T.
  assert (L : lex_rule r0).
  { destruct Hh as (b & _ & U & Sf). assert (P : Parse gp [] b = Ok (mkFile frs)) by (apply parse_source; auto). apply parse_shape in P. cbn [f_rules] in P.
    rewrite Forall_forall in P. apply P. exact Ir. }
  assert (V : rule_vars (rule_inst i r0) = rule_vars r0) by (unfold rule_vars, rule_inst; cbn [r_match r_result]; rewrite !value_vars_inst; reflexivity).
  rewrite V. destruct L as (L1 & _ & L2). assert (Fx : Forall (fun x => ident x \/ x = str "_") (rule_vars r0)) by (apply Forall_app; split; apply lex_vars; assumption).
  rewrite Forall_forall in *. intros x Hx. apply untaken_legal; auto.
Qed.
(** Each script written is that of an instance of a simple rule of one of the files, and
    decides it; and every instance of a simple rule that has a script has it written. *)
Theorem C47_scripts_decide_source_rules :
  forall gp disk failing outdir names w w' lenient, never_nil gp ->
    run (parse_disk gp disk) Join failing outdir names w = Exit w' None ->
    exists written, w_files w' = w_files w ++ written /\
      (forall p s, In (p, s) written ->
        exists name rs r i, In name names /\ holds gp disk name rs /\ In r rs /\ simple_rule r /\ (i < arity (rule_groups r))%nat /\
          Generate (rule_inst i r) = Ok s /\
          (Forall (fun x => ~ taken lenient x) (rule_vars r) ->
           exists cmds, read_script lenient s = Some cmds /\ (~ satisfiable cmds <-> rule_valid (rule_inst i r)))) /\
      (forall name rs r i s, In name names -> holds gp disk name rs -> In r rs -> simple_rule r -> (i < arity (rule_groups r))%nat ->
        Generate (rule_inst i r) = Ok s -> exists p, In (p, s) written).
Proof.
  intros gp disk failing outdir names w w' lenient W H. destruct (C44_output_files gp disk failing outdir names w w' W H) as (rs & l & R & Wf & _ & E).
  exists l. split; [exact Wf|]. destruct R as (k & (files & F & S) & _ & ->). split.
  { intros p s I. apply E in I. destruct I as (j & r & ds & N & G & _ & _).
  apply nth_error_In in N. apply in_flat_map in N. destruct N as (r0 & I0 & I). unfold instances in I. apply in_map_iff in I. destruct I as (i & <- & Hi).
  apply in_seq in Hi. apply (sifted_incl _ _ _ S) in I0. destruct I0 as [I0 Sr]. apply in_concat in I0. destruct I0 as (frs & If & Ir).
  assert (X : exists name, In name names /\ holds gp disk name frs).
  { clear -F If. induction F; [contradiction|]. destruct If as [<-|If]; [exists x; cbn; auto|]. destruct (IHF If) as (n & A & B). exists n. cbn; auto. }
  destruct X as (name & In_ & Hh). exists name, frs, r0, i. repeat (split; [first [assumption|lia]|]). intros T.
  apply (decides lenient _ _ G). eapply source_legal; eauto. }
  intros name frs r i s Hn Hh Ir Sr Hi G.
  assert (If : In frs files).
  { clear -F Hn Hh. induction F as [|n b ns bs Hb F IH]; [contradiction|]. destruct Hn as [->|Hn]; [left|right; auto].
    destruct Hb as (x & X & U & Sf), Hh as (y & Y & V & Sg). rewrite X in Y. injection Y as ->.
    assert (P1 : Parse gp [] y = Ok (mkFile b)) by (apply parse_source; auto). assert (P2 : Parse gp [] y = Ok (mkFile frs)) by (apply parse_source; auto). congruence. }
  assert (Ik : In r k).
  { assert (I : In r (List.concat files)) by (apply in_concat; eauto). clear -S I Sr. induction S; [contradiction|destruct I as [->|I]; cbn; auto|destruct I as [->|I]; [contradiction|auto]]. }
  assert (I : In (rule_inst i r) (flat_map instances k)) by (apply in_flat_map; exists r; split; [exact Ik|]; apply in_map_iff; exists i; split; [reflexivity|apply in_seq; lia]).
  apply In_nth_error in I. destruct I as [j I]. destruct (C44_names) as [Nm _]. destruct (Nm j) as (ds & D & _). exists (Join outdir (ds ++ str ".smt2")). apply E. eauto 8.
Qed.
Print Assumptions C47_scripts_decide_source_rules.
Example C47_example : Forall (fun x => ~ taken false x) (flat_map rule_vars ex_loaded) /\
  exists w s, ex_run no_failure ex_names = Exit w None /\ In (str "out/0003.smt2", s) (w_files w) /\
    exists cmds, read_script false s = Some cmds.
Proof.
  split; [repeat (apply Forall_cons; [intros [H _]; vm_compute in H; intuition discriminate|]); apply Forall_nil|].
  eexists _, _. split; [vm_compute; reflexivity|]. split; [right; right; left; reflexivity|]. eexists. vm_compute. reflexivity.
Qed.

(** * C48: what is reported *)
Theorem C48_log :
  forall gp disk failing outdir names w w', never_nil gp ->
    run (parse_disk gp disk) Join failing outdir names w = Exit w' None ->
    exists files k rs written l1 l2, Forall2 (holds gp disk) names files /\ sifted simple_rule (List.concat files) k /\ rs = flat_map instances k /\
      load_log names files k rs l1 /\ outputs Generate (Join outdir) 0 rs written l2 /\ w_log w' = w_log w ++ l1 ++ l2.
Proof.
  intros gp disk failing outdir names w w' W H. pose proof (run_cases gp disk failing outdir names w W) as R. rewrite H in R.
  destruct R as (rs & l & log & pre & Rr & O & Wf & Wl & -> & _).
  apply (proj1 (proj2 (load_exact gp W disk names w)) (mkFile rs)) in Rr.
  destruct (load_ok gp W disk names w _ Rr) as (files & k & l1 & F & S & U & E & LL & WL). cbn [f_rules] in *.
  exists files, k, rs, l, l1, log. repeat (split; [assumption|]). rewrite Wl, WL, <- app_assoc. reflexivity.
Qed.
Print Assumptions C48_log.
(** On standard error: each message on a line of its own, and the error last. *)
Theorem C48_stderr :
  forall w,
    lines (w_log w) (p_stderr (main_ (Exit w None))) /\
    (forall e, lines (w_log w ++ [e]) (p_stderr (main_ (Exit w (Some e))))).
Proof. intros w. split; [|intros e; unfold main_, p_stderr; rewrite log_logf]; apply line_lines. Qed.
Print Assumptions C48_stderr.
Example C48_example : exists rest,
  p_stderr (main_ (ex_run no_failure ex_names)) = str "ssarules: parsed 2 rules from a.rules" ++ [nl] ++ rest /\
  p_status (main_ (ex_run no_failure [str "z"])) = 1%nat /\
  p_stderr (main_ (ex_run no_failure [str "z"])) = str "ssarules: parse: open: no such file" ++ [nl].
Proof. eexists. split; [vm_compute; reflexivity|]. split; vm_compute; reflexivity. Qed.
