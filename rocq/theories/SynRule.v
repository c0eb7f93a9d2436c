(** Rules and files: the grammar rules Rule and File. *)
From Verif Require Import Text GoAst Ast Utf8 GoExpr Peg Grammar Parse SpecPrint SpecUtf8 SpecSyntax PegPoints PegSem SynLex SynWords SynExpr SynValue ParseFacts.
From Verif Require Import SynTrim.
From Coq Require Import NArith Arith Bool Lia.

(** A rune that starts in [c :: k] ends there, if an ASCII byte or the end follows. *)
Lemma rune_within c k r : r = [] \/ (exists d r', r = d :: r' /\ (byte_val d < 128)%N) ->
  exists x k', c :: k = x ++ k' /\ after_rune (c :: k ++ r) = k' ++ r /\ x <> [].
Proof.
  intros St. destruct (after_rune_split c (k ++ r)) as (x & E & _ & X).
  assert (L : (List.length x <= List.length (c :: k))%nat /\ x <> []).
  { destruct X as [[_ ->]|[Hx Nx]]; [cbn; split; [lia|discriminate]|]. split; [|exact Nx].
    destruct (le_lt_dec (List.length x) (List.length (c :: k))) as [L|L]; [exact L|exfalso].
    change (c :: k ++ r) with ((c :: k) ++ r) in E.
    destruct St as [->|(d & r' & -> & Hd)].
    - apply (f_equal (@List.length _)) in E. rewrite !app_length in E. cbn [List.length] in *. lia.
    - assert (I : nth (List.length (c :: k)) x sp = d).
      { rewrite <- (app_nth1 x (after_rune ((c :: k) ++ d :: r')) sp L), <- E.
        rewrite app_nth2, Nat.sub_diag; [reflexivity|lia]. }
      rewrite Forall_forall in Hx. specialize (Hx d). rewrite <- I in Hx at 1. specialize (Hx (nth_In x sp L)). lia. }
  destruct L as [L Ne]. change (c :: k ++ r) with ((c :: k) ++ r) in *.
  exists x, (skipn (List.length x) (c :: k)). split; [|split; [|exact Ne]].
  - rewrite <- (firstn_skipn (List.length x) (c :: k)) at 1. f_equal.
    apply (f_equal (firstn (List.length x))) in E. rewrite !firstn_app in E.
    rewrite Nat.sub_diag, firstn_all in E. cbn [firstn] in E. rewrite app_nil_r in E.
    replace (List.length x - List.length (c :: k))%nat with 0%nat in E by lia. cbn [firstn] in E. rewrite app_nil_r in E. exact E.
  - apply (f_equal (skipn (List.length x))) in E. rewrite !skipn_app in E.
    rewrite Nat.sub_diag, skipn_all in E. replace (List.length x - List.length (c :: k))%nat with 0%nat in E by lia. cbn [skipn app] in E.
    symmetry. exact E.
Qed.

Section Rules.
  Variable gp : text -> res gexpr.
  Notation RUN := (run_action gp).
  Notation S := (sem RUN the_grammar).
  Notation SQ := (sem_seq RUN the_grammar).
  Notation SR := (sem_rep RUN the_grammar).
  Notation Expr := (PRef (str "Expr")).
  Notation Call := (PRef (str "Call")).
  Notation Value := (PRef (str "Value")).
  Notation Rule := (PRef (str "Rule")).

  (** ** Conditions *)
  Definition g_char : pexp := PSeq [PAny; PNot (lit "=>" """=>""")].
  Definition arrow_next (t : text) : Prop := exists r, t = str "=>" ++ r.
  Lemma char_ok c t : ~ arrow_next (after_rune (c :: t)) -> exists v en, S g_char [] (c :: t) (Good v en (after_rune (c :: t))).
  Proof.
    intros N. do 2 eexists. apply sem_sequence. eapply seq_cons; [apply sem_any; discriminate|].
    eapply seq_cons; [apply sem_not_fail; apply lit_bad; intros r E; apply N; exists r; exact E|]. apply seq_nil.
  Qed.
  Lemma char_bad t : t = [] \/ arrow_next (after_rune t) -> S g_char [] t Fail.
  Proof.
    intros H. apply sem_sequence. destruct t as [|c t].
    - apply seq_fail. apply sem_any_fail.
    - destruct H as [H|[r E]]; [discriminate|]. eapply seq_cons; [apply sem_any; discriminate|]. apply seq_fail. rewrite E. eapply sem_not. apply lit_ok.
  Qed.
  Lemma char_inv t v en r : S g_char [] t (Good v en r) -> t <> [] /\ r = after_rune t /\ ~ arrow_next r.
  Proof.
    intros H. apply sequence_inv in H. apply seq_inv in H. destruct H as (v1 & en1 & r1 & M1 & M). apply seq_inv in M. destruct M as (v2 & en2 & r2 & M2 & M).
    apply seq_end in M. destruct M as (_ & _ & ->). inversion M1; subst. inversion M2 as [| | | | | | |? ? ? N| | | | | | | | | | | | |]; subst.
    split; [assumption|]. split; [reflexivity|]. intros [r E]. apply (lit_bad_inv gp _ _ _ _ N r). exact E.
  Qed.
  Lemma char_bad_inv t : S g_char [] t Fail -> t = [] \/ arrow_next (after_rune t).
  Proof.
    intros H. apply sequence_inv in H. inversion H as [|? ? ? ? ? ? ? ? ? M1 M|? ? ? ? ? M]; subst.
    - inversion M1; subst. inversion M as [|? ? ? ? ? ? ? ? ? M2 M'|? ? ? ? ? M2]; subst; [inversion M'|].
      inversion M2 as [| | | | | |? ? ? ? ? ? L| | | | | | | | | | | | | |]; subst. apply lit_inv in L. destruct L as [L _]. right. eexists. exact L.
    - inversion M; subst. auto.
  Qed.

  Lemma chars_ok c : forall rest, (forall x y, c = x ++ str "=>" ++ y -> x = []) ->
    (exists b after, rest = b :: str "=>" ++ after /\ blank b) -> exists vs, SR g_char (c ++ rest) vs rest /\ (vs = [] <-> c = []).
  Proof.
    remember (List.length c) as n eqn:Hn. revert c Hn. induction n as [n IH] using lt_wf_ind; intros c Hn rest N (b & after & E & B). subst n.
    assert (Bb : (byte_val b < 128)%N) by (destruct B as [-> | [-> | [-> | ->]]]; reflexivity).
    destruct c as [|d c]; cbn [app].
    - exists []. split; [|tauto]. apply rep_nil. apply char_bad. right. subst rest. destruct (after_ascii b (str "=>" ++ after) Bb) as (_ & _ & ->). exists after. reflexivity.
    - destruct (rune_within d c rest) as (x & k' & E1 & E2 & Ne); [right; exists b, (str "=>" ++ after); auto|].
      assert (NA : ~ arrow_next (k' ++ rest)).
      { intros [r A]. subst rest. destruct k' as [|e1 [|e2 k']]; cbn in A; inversion A; subst.
        - destruct B as [H|[H|[H|H]]]; discriminate.
        - apply Ne. apply (N x k'). rewrite E1. reflexivity. }
      destruct (char_ok d (c ++ rest)) as (v & en & G); [rewrite E2; exact NA|]. rewrite E2 in G.
      destruct (IH (List.length k')) with (c := k') (rest := rest) as [vs [R _]]; eauto.
      { apply (f_equal (@List.length _)) in E1. rewrite app_length in E1. destruct x; [contradiction|]. cbn [List.length] in *. lia. }
      { intros x' y' Ek. exfalso. subst k'. assert (Q : x ++ x' = []) by (apply (N _ y'); rewrite E1, <- app_assoc; reflexivity).
        apply app_eq_nil in Q. tauto. }
      exists (v :: vs). split; [eapply rep_cons; eauto|split; discriminate].
  Qed.
  Lemma chars_inv vs : forall t r, SR g_char t vs r -> exists k, t = k ++ r /\ (vs = [] <-> k = []) /\
    (forall x y, k = x ++ str "=>" ++ y -> x = []) /\ (r = [] \/ arrow_next (after_rune r)).
  Proof.
    induction vs as [|v vs IH]; intros t r H; inversion H; subst.
    - exists []. split; [reflexivity|]. split; [tauto|]. split; [intros [|] y E; [reflexivity|discriminate]|]. apply char_bad_inv. assumption.
    - match goal with G : S g_char _ _ _ |- _ => apply char_inv in G; destruct G as (Ne & -> & NA) end.
      match goal with G : SR _ _ vs _ |- _ => apply IH in G; destruct G as (k & E & _ & N & R) end.
      destruct t as [|c t]; [contradiction|]. destruct (after_rune_split c t) as (x & Ex & _ & X). rewrite E in *.
      exists (x ++ k). rewrite <- app_assoc. split; [exact Ex|]. split.
      { split; [discriminate|]. intros Q. apply app_eq_nil in Q. destruct Q as [-> _]. destruct X as [[_ X]|[_ X]]; [discriminate|contradiction]. }
      split; [|exact R]. intros a y Q. destruct a as [|a1 a']; [reflexivity|exfalso].
      assert (exists z, a1 :: a' = x ++ z) as [z Z].
      { assert (L : (List.length x <= List.length (a1 :: a'))%nat).
        { destruct X as [[_ ->]|[Hx _]]; [cbn; lia|]. destruct (le_lt_dec (List.length x) (List.length (a1 :: a'))) as [L|L]; [exact L|exfalso].
          assert (I : nth (List.length (a1 :: a')) x sp = "="%char).
          { rewrite <- (app_nth1 x k sp L), Q. rewrite app_nth2, Nat.sub_diag; [reflexivity|lia]. }
          rewrite Forall_forall in Hx. specialize (Hx "="%char). rewrite <- I in Hx at 1. specialize (Hx (nth_In x sp L)). apply Hx. reflexivity. }
        exists (skipn (List.length x) (a1 :: a')). rewrite <- (firstn_skipn (List.length x) (a1 :: a')) at 1. f_equal.
        apply (f_equal (firstn (List.length x))) in Q. rewrite !firstn_app, Nat.sub_diag, firstn_all in Q. cbn [firstn] in Q.
        replace (List.length x - List.length (a1 :: a'))%nat with 0%nat in Q by lia. cbn [firstn] in Q. rewrite !app_nil_r in Q. symmetry. exact Q. }
      rewrite Z, <- app_assoc in Q. apply app_inv_head in Q. pose proof (N _ _ Q) as ->. cbn [app] in Q. apply NA. subst k. eexists. cbn [app]. reflexivity.
  Qed.

  Definition g_cond : pexp := POpt (PSeq [g_ws1; lit "&&" """&&"""; g_ws1; g_Condition]).
  Definition cond_val (c : option gexpr) (v : val) : Prop :=
    match c with None => v = VNil | Some e => exists a b d, v = VSlice [a; b; d; VValue (EVal e)] end.
  Lemma amp_no_skip r : no_skip (str "&&" ++ r).
  Proof. apply no_skip_char; [intros [H|[H|[H|H]]]; discriminate|discriminate]. Qed.
  Lemma arrow_no_skip r : no_skip (str "=>" ++ r).
  Proof. apply no_skip_char; [intros [H|[H|[H|H]]]; discriminate|discriminate]. Qed.
  Lemma cond_ok w1 rest ct c : cond_form gp (w1 ++ str "=>" ++ rest) ct c -> ws w1 ->
    exists v, cond_val c v /\ S g_cond [] (ct ++ w1 ++ str "=>" ++ rest) (Good v [] (w1 ++ str "=>" ++ rest)).
  Proof.
    intros C W1. inversion C as [|w w' t e b after' W W' Ne NS N E B R]; subst.
    - exists VNil. split; [reflexivity|]. cbn [app]. apply sem_opt_fail. apply sem_sequence. destruct w1 as [|c w1].
      + apply seq_fail. apply ws1_bad. apply arrow_no_skip.
      + assert (W : ws1 (c :: w1)) by (split; [exact W1|discriminate]). destruct (ws1_ok gp (c :: w1) (str "=>" ++ rest) [] W (arrow_no_skip rest)) as [v G].
        eapply seq_cons; [exact G|]. apply seq_fail. apply lit_bad1. nextchar.
    - apply reads_cond_iff in R. set (r := w1 ++ str "=>" ++ rest) in *. destruct (chars_ok t r N) as (vs & Rep & X); [rewrite E; eauto|].
      destruct vs as [|v vs]; [destruct Ne; apply X; reflexivity|].
      rewrite <- !app_assoc. destruct (ws1_ok gp w (str "&&" ++ w' ++ t ++ r) [] W (amp_no_skip _)) as [v1 G1].
      destruct (ws1_ok gp w' (t ++ r) [] W' NS) as [v2 G2].
      eexists. split; [do 3 eexists; reflexivity|]. eapply sem_opt. apply sem_sequence.
      eapply seq_cons; [exact G1|]. eapply seq_cons; [apply lit_ok|]. eapply seq_cons; [exact G2|].
      eapply seq_cons; [|apply seq_nil]. eapply sem_action; [apply sem_plus; exact Rep|].
      rewrite consumed_app. cbn [run_action]. apply with_goexpr_spec. eauto.
  Qed.
  (** The condition is followed by white space and the arrow. *)
  Lemma cond_inv t v en en' r w1 rest : S g_cond en t (Good v en' r) -> r = w1 ++ str "=>" ++ rest -> ws w1 ->
    exists ct c, t = ct ++ r /\ cond_form gp r ct c /\ cond_val c v /\ en' = en.
  Proof.
    intros H Er W1. inversion H as [| | | | | | | |? ? ? ? ? ? A|? ? ? A| | | | | | | | | | |]; subst.
    - apply sequence_inv in A. apply seq_inv in A. destruct A as (v1 & en1 & r1 & M1 & M). apply seq_inv in M. destruct M as (v2 & en2 & r2 & M2 & M).
      apply seq_inv in M. destruct M as (v3 & en3 & r3 & M3 & M). apply seq_inv in M. destruct M as (v4 & en4 & r4 & M4 & M).
      apply seq_end in M. destruct M as (-> & _ & <-).
      apply ws1_inv in M1. destruct M1 as (w & -> & W & _ & ->). apply lit_inv in M2. destruct M2 as [-> ->].
      apply ws1_inv in M3. destruct M3 as (w' & -> & W' & NS & ->).
      inversion M4 as [? ? ? ? ? ? ? ? P R| | | | | | | | | | | | | | | | | | | |]; subst.
      inversion P as [| | | | | | | | | | |? ? ? ? ? ? Rep| | | | | | | | |]; subst. apply chars_inv in Rep.
      destruct Rep as (c & -> & X & N & Q). rewrite consumed_app in R. cbn [run_action] in R. apply with_goexpr_spec in R. destruct R as (e & R & ->). apply reads_cond_iff in R.
      exists (w ++ str "&&" ++ w' ++ c), (Some e). split; [rewrite <- !app_assoc; reflexivity|].
      split; [|split; [do 3 eexists; reflexivity|reflexivity]].
      assert (K : exists b after', w1 ++ str "=>" ++ rest = b :: str "=>" ++ after' /\ blank b).
      { destruct Q as [Q|[y Q]]; [destruct w1; discriminate|]. destruct w1 as [|b w1].
        - cbn [app] in Q. destruct (after_ascii "="%char (">"%char :: rest)) as (_ & _ & F); [reflexivity|].
          change (after_rune (str "=>" ++ rest) = str "=>" ++ y) in Q. change (str "=>" ++ rest) with ("="%char :: ">"%char :: rest) in Q.
          rewrite F in Q. discriminate.
        - assert (Bb : (byte_val b < 128)%N) by (destruct (ws_first b w1 W1) as [[-> | [-> | [-> | ->]]]| ->]; reflexivity).
          destruct (after_ascii b (w1 ++ str "=>" ++ rest) Bb) as (_ & _ & F). apply (eq_trans (eq_sym F)) in Q.
          exists b, y. split; [cbn [app] in *; f_equal; exact Q|].
          inversion W1 as [|k t K W2 Ek]; subst. destruct K as [d Bd|a Na]; cbn in Ek; inversion Ek; subst; [exact Bd|].
          discriminate. }
      destruct K as (b & after' & Eb & B). econstructor; eauto. intros ->. destruct X as [_ X]. discriminate X. reflexivity.
    - exists [], None. split; [reflexivity|]. split; [constructor|]. split; reflexivity.
  Qed.

  (** ** Blocks *)
  Definition is_stop (c : ascii) : bool := is sp c || is tab c || is cr c.
  Lemma is_stop_spec c : is_stop c = true <-> block_stop c.
  Proof. unfold is_stop, block_stop. rewrite !orb_true_iff, !is_spec. intuition congruence. Qed.
  Definition g_stop : pexp := PClass (str "[ \t\r]") [32; 9; 13]%N [] false.
  Definition g_inblock : pexp := PSeq [PNot g_stop; PAny].
  Lemma hit_stop c : in_class [32; 9; 13]%N [] false (byte_val c) = true <-> is_stop c = true.
  Proof.
    rewrite is_stop_spec. unfold block_stop, in_class. cbn [existsb]. rewrite xorb_false_r, !orb_false_r, !orb_true_iff, !N.eqb_eq.
    change 32%N with (byte_val sp). change 9%N with (byte_val tab). change 13%N with (byte_val cr).
    split; intros [H|[H|H]]; try (apply byte_val_inj in H); subst; auto.
  Qed.
  Lemma inblock_stop t : stops is_stop t -> S g_inblock [] t Fail.
  Proof.
    intros [->|(c & t' & -> & D)]; apply sem_sequence.
    - eapply seq_cons; [apply sem_not_fail; apply class_bad; [reflexivity|intros c t' E; discriminate]|]. apply seq_fail. apply sem_any_fail.
    - apply seq_fail. eapply sem_not. apply class_ok; [reflexivity|]. apply hit_stop. exact D.
  Qed.
  Lemma inblock_go c t : is_stop c = false -> exists v en, S g_inblock [] (c :: t) (Good v en (after_rune (c :: t))).
  Proof.
    intros D. do 2 eexists. apply sem_sequence. eapply seq_cons; [apply sem_not_fail; apply class_bad; [reflexivity|]|].
    - intros d t' E H. inversion E; subst. apply hit_stop in H. congruence.
    - eapply seq_cons; [apply sem_any; discriminate|]. apply seq_nil.
  Qed.
  Lemma stop_ascii c : is_stop c = true -> (byte_val c < 128)%N.
  Proof. rewrite is_stop_spec. intros [-> | [-> | ->]]; reflexivity. Qed.
  Definition block_val (b : text) (v : val) : Prop := (b = [] /\ v = VNil) \/ (b <> [] /\ v = VString b).
  Lemma block_ok after bt b : block_form after bt b -> not_next (eq "@"%char) after ->
    exists v, block_val b v /\ S (POpt g_Block) [] (bt ++ after) (Good v [] after).
  Proof.
    intros [|b' c after' Ne F E St] N.
    - exists VNil. split; [left; auto|]. apply sem_opt_fail. apply sem_action_fail. apply sem_sequence. apply seq_fail. apply lit_bad1. exact N.
    - exists (VString b'). split; [right; auto|]. rewrite <- app_assoc.
      destruct (until_ok gp g_inblock is_stop inblock_stop inblock_go stop_ascii b' after) as [vs [R X]].
      + eapply Forall_impl; [|exact F]. intros d H. destruct (is_stop d) eqn:Q; [apply is_stop_spec in Q; contradiction|reflexivity].
      + right. exists c, after'. split; [exact E|]. apply is_stop_spec. exact St.
      + destruct vs as [|v vs]; [destruct Ne; apply X; reflexivity|].
        eapply sem_opt. eapply sem_action.
        * apply sem_sequence. eapply seq_cons; [apply lit_ok|]. eapply seq_cons; [apply sem_plus; exact R|]. apply seq_nil.
        * rewrite app_assoc, consumed_app. reflexivity.
  Qed.
  Lemma block_inv t v en en' r : S (POpt g_Block) en t (Good v en' r) -> r <> [] ->
    exists bt b, t = bt ++ r /\ block_form r bt b /\ block_val b v /\ en' = en.
  Proof.
    intros H Nr. inversion H as [| | | | | | | |? ? ? ? ? ? A|? ? ? A| | | | | | | | | | |]; subst.
    - inversion A as [? ? ? ? ? ? ? ? P R| | | | | | | | | | | | | | | | | | | |]; subst. apply sequence_inv in P.
      apply seq_inv in P. destruct P as (v1 & en1 & r1 & M1 & M). apply seq_inv in M. destruct M as (v2 & en2 & r2 & M2 & M).
      apply seq_end in M. destruct M as (_ & _ & <-). apply lit_inv in M1. destruct M1 as [-> ->].
      inversion M2 as [| | | | | | | | | | |? ? ? ? ? ? Rep| | | | | | | | |]; subst.
      apply (until_inv gp g_inblock is_stop inblock_stop inblock_go stop_ascii) in Rep. destruct Rep as (b & -> & F & St & X).
      rewrite app_assoc, consumed_app in R. cbn in R. inversion R; subst.
      assert (Ne : b <> []) by (intros ->; destruct X as [_ X]; discriminate X; reflexivity).
      exists (str "@" ++ b), b. split; [rewrite <- app_assoc; reflexivity|]. split; [|split; [right; auto|reflexivity]].
      destruct St as [->|(c & t' & -> & D)]; [contradiction|]. apply is_stop_spec in D. econstructor; eauto.
      eapply Forall_impl; [|exact F]. cbn. intros d Hd Hs. apply is_stop_spec in Hs. congruence.
    - exists [], []. split; [reflexivity|]. split; [constructor|]. split; [left; auto|reflexivity].
  Qed.

  (** ** Where the result ends *)
  Lemma char_paren w r : ws w -> not_next (eq "("%char) r -> not_next (eq "("%char) (w ++ r).
  Proof. intros W N. apply ws_not_next; auto. intros c [[-> | [-> | [-> | ->]]] | ->]; discriminate. Qed.
  Lemma hole_or_ident_ok a w r : ident a \/ a = str "_" -> ws w -> S Expr [] (a ++ w ++ str ")" ++ r) (Good (VValue (Var a)) [] (w ++ str ")" ++ r)).
  Proof.
    intros Ha W. assert (O : op_end (w ++ str ")" ++ r)) by (apply ws_end; [exact W|split; nextchar]).
    destruct Ha as [Ha| ->].
    - apply expr_var_ok; [exact Ha|apply O|apply call_bad_paren; assumption].
    - apply expr_hole_ok. intros c t' E <-. destruct O as [A _]. apply (A _ _ E). left. reflexivity.
  Qed.
  Lemma close_no_skip r : no_skip (str ")" ++ r).
  Proof. apply no_skip_char; [intros [H|[H|[H|H]]]; discriminate|discriminate]. Qed.
  Lemma expr_end_value_end k r : expr_end gp k r -> value_end k r.
  Proof.
    intros [A B]. split; [|exact B]. intros Hk. destruct (A Hk) as [N C]. split; [exact N|].
    intros w a w' after W Ha W' ->.
    inversion C as [| | | | | | | | | | | | | |? ? ? ? Gr F| | | | | |]; subst. cbn in Gr. inversion Gr; subst b. clear Gr.
    inversion F as [|? ? ? ? P| | | | | | | | | | | | | | | | | | |]; subst. apply sequence_inv in P.
    assert (Nw : not_next word_char (str "(" ++ w ++ a ++ w' ++ str ")" ++ after)) by nextchar.
    destruct (ident_seq gp k _ Hk Nw) as (u1 & u2 & Id).
    assert (NS : no_skip (a ++ w' ++ str ")" ++ after)).
    { destruct Ha as [(c & t & -> & L & _)| ->]; apply lower_no_skip; auto. }
    destruct (ws0_ok gp w _ [] W NS) as [v1 G1].
    destruct (ws0_ok gp w' (str ")" ++ after) [] W' (close_no_skip after)) as [v2 G2].
    assert (G : exists v, SQ (g_ident ++ [lit "(" """("""; g_ws0; Expr; PStar g_more; g_ws0; lit ")" """)"""]) [] [] (k ++ str "(" ++ w ++ a ++ w' ++ str ")" ++ after) (Good v [] after)).
    { eexists. apply Id. eapply seq_cons; [apply lit_ok|]. eapply seq_cons; [exact G1|].
      eapply seq_cons; [apply hole_or_ident_ok; assumption|].
      eapply seq_cons; [apply sem_star; apply rep_nil; apply sem_sequence; eapply seq_cons; [exact G2|]; apply seq_fail; apply lit_bad1; nextchar|].
      eapply seq_cons; [exact G2|]. eapply seq_cons; [apply lit_ok|]. apply seq_nil. }
    destruct G as [v G]. pose proof (proj1 (proj2 (proj2 (sem_fun _ _))) _ _ _ _ _ P _ G) as Q. discriminate.
  Qed.

  (** The rest of a call once its first argument is read: no comma, no end. *)
  Lemma call_stuck w x : ws w -> no_skip x -> not_next (eq ","%char) x -> not_next (eq ")"%char) x ->
    forall vals, SQ [PStar g_more; g_ws0; lit ")" """)"""] vals [] (w ++ x) Fail.
  Proof.
    intros W N C P vals. destruct (ws0_ok gp w x [] W N) as [v G].
    eapply seq_cons; [apply sem_star; apply rep_nil; apply sem_sequence; eapply seq_cons; [exact G|]; apply seq_fail; apply lit_bad1; exact C|].
    eapply seq_cons; [exact G|]. apply seq_fail. apply lit_bad1. exact P.
  Qed.
  (** A call whose first argument is followed by something else than "," or ")". *)
  Lemma call_bad_arg f w t u w' x : ident f -> ws w -> no_skip t -> t = u ++ w' ++ x ->
    (exists v, S Expr [] t (Good v [] (w' ++ x))) ->
    ws w' -> no_skip x -> not_next (eq ","%char) x -> not_next (eq ")"%char) x -> S Call [] (f ++ str "(" ++ w ++ t) Fail.
  Proof.
    intros Hf W N E [v G] W' Nx C P. destruct (ident_seq gp f (str "(" ++ w ++ t) Hf) as (u1 & u2 & Id); [nextchar|].
    destruct (ws0_ok gp w t [] W N) as [v1 G1].
    eapply sem_ref_fail; [reflexivity|]. apply sem_action_fail. apply sem_sequence. apply Id.
    eapply seq_cons; [apply lit_ok|]. eapply seq_cons; [exact G1|]. eapply seq_cons; [exact G|]. apply call_stuck; assumption.
  Qed.
  Lemma call_bad_noarg f w t : ident f -> ws w -> no_skip t -> S Expr [] t Fail -> S Call [] (f ++ str "(" ++ w ++ t) Fail.
  Proof.
    intros Hf W N F. destruct (ident_seq gp f (str "(" ++ w ++ t) Hf) as (u1 & u2 & Id); [nextchar|].
    destruct (ws0_ok gp w t [] W N) as [v1 G1].
    eapply sem_ref_fail; [reflexivity|]. apply sem_action_fail. apply sem_sequence. apply Id.
    eapply seq_cons; [apply lit_ok|]. eapply seq_cons; [exact G1|]. apply seq_fail. exact F.
  Qed.
End Rules.
