(** The parser's entry points in terms of the semantics of the grammar. *)
From Verif Require Import Text GoAst Ast Utf8 GoExpr Peg Grammar Parse SpecUtf8 PegPoints PegTerm PegSem PegAgree.
From Coq Require Import NArith Arith Bool Lia.

(** * The grammar passes the checks of PegTerm.v *)
Lemma the_grammar_in n b : the_grammar n = Some b -> In (n, b) grammar_rules.
Proof.
  unfold the_grammar. destruct (find _ grammar_rules) as [[k e]|] eqn:E; [|discriminate].
  intros H. inversion H; subst. apply find_some in E. destruct E as [I E]. apply text_eqb_eq in E. cbn in E. subst. exact I.
Qed.
Lemma by_rules (P : text -> pexp -> bool) : forallb (fun p => P (fst p) (snd p)) grammar_rules = true ->
  forall n b, the_grammar n = Some b -> P n b = true.
Proof. intros H n b G. apply the_grammar_in in G. rewrite forallb_forall in H. apply (H _ G). Qed.

Lemma grammar_lits n b : the_grammar n = Some b -> ascii_lits b = true.
Proof. apply (by_rules (fun _ => ascii_lits)). vm_compute. reflexivity. Qed.

Definition cons_tab (n : text) : bool := negb (text_eqb n (str "File")).
Definition h_tab (n : text) : nat :=
  if text_eqb n (str "Call") then 10 else if text_eqb n (str "Expr") then 15
  else if text_eqb n (str "SExpr") then 15 else if text_eqb n (str "Value") then 20
  else if text_eqb n (str "Operand") then 25 else if text_eqb n (str "Rule") then 30 else 40.
Lemma cons_ok n b : the_grammar n = Some b -> cons_tab n = true -> consumes cons_tab b = true.
Proof.
  intros G C. assert (H : implb (cons_tab n) (consumes cons_tab b) = true); [|rewrite C in H; exact H].
  revert n b G C. intros n b G _. revert n b G. apply (by_rules (fun n b => implb (cons_tab n) (consumes cons_tab b))).
  vm_compute. reflexivity.
Qed.
Lemma h_ok n b : the_grammar n = Some b -> bounded cons_tab 64 h_tab b = true /\ (height cons_tab h_tab b <= h_tab n)%nat.
Proof.
  intros G. rewrite <- Nat.leb_le, <- andb_true_iff.
  revert n b G. apply (by_rules (fun n b => bounded cons_tab 64 h_tab b && (height cons_tab h_tab b <=? h_tab n)%nat)).
  vm_compute. reflexivity.
Qed.

Section Facts.
  Variable gp : text -> res gexpr.
  Notation RUN := (run_action gp).
  Notation PE := (parse_expr RUN the_grammar).

  Definition start (data : text) : pstate := read None (init_state data).

  Lemma start_left data : left_ (start data) = List.length data.
  Proof. unfold left_, start, read. destruct (_ && _); cbn [pt set_pt addErrAt]; rewrite read_pt_rest; reflexivity. Qed.
  Lemma start_rest data : rest (pt (start data)) = data.
  Proof. unfold start. rewrite read_pt_eq, read_pt_rest. reflexivity. Qed.

  (** parse_bound is enough. *)
  Lemma parse_terminates data : PE (parse_bound data) (str "File") g_File [] (start data) <> OutOfFuel.
  Proof.
    apply (enough RUN the_grammar data grammar_lits cons_tab cons_ok 64 h_tab h_ok ltac:(lia)).
    - vm_compute. reflexivity.
    - vm_compute. reflexivity.
    - apply init_inv.
    - rewrite start_left. assert (H : (height cons_tab h_tab g_File <= 64)%nat) by (apply Nat.leb_le; vm_compute; reflexivity).
      unfold parse_bound. lia.
  Qed.

  (** Successful runs of onFile1 give files. *)
  Lemma on_file_ok is : forall acc v, on_file is acc = AOk v -> exists f, v = VFile f.
  Proof.
    induction is as [|i is IH]; intros acc v H; cbn [on_file] in H; [inversion H; eauto|].
    unfold elem in H. destruct i as [| |l| | | | | | | | | |]; try discriminate. destruct (nth_error l 1) as [[]|]; try discriminate. eauto.
  Qed.
  Lemma sem_file_val t v en r : sem RUN the_grammar g_File [] t (Good v en r) -> exists f, v = VFile f.
  Proof.
    intros H. inversion H; subst. cbn [run_action] in *.
    match goal with E : match ?x with _ => _ end = AOk _ |- _ => destruct x; try discriminate; apply on_file_ok in E; exact E end.
  Qed.
  (** A match of File reaches the end of the text. *)
  Lemma sem_file_end t v en r : sem RUN the_grammar g_File [] t (Good v en r) -> r = [].
  Proof.
    intros H. unfold g_File in H. inversion H as [? ? ? ? ? ? ? ? S| | | | | | | | | | | | | | | | | | | |]; subst.
    inversion S as [| | | | |? ? ? ? Q| | | | | | | | | | | | | | |]; subst.
    inversion Q as [|? ? ? ? ? ? ? ? ? Q1 Q2|]; subst. inversion Q2 as [|? ? ? ? ? ? ? ? ? Q3 Q4|]; subst.
    inversion Q4; subst. inversion Q3 as [| | | | | | |? ? ? N| | | | | | | | | | | | |]; subst. inversion N. reflexivity.
  Qed.

  Lemma clean_end_utf8 data p : Clean data p -> rest p = [] -> utf8 data.
  Proof.
    intros [i [[-> B] V]] R.
    assert (H : forall j, (j <= i)%nat -> utf8 (rest (pts data (i - j)))).
    { induction j as [|j IH]; intros L; [rewrite Nat.sub_0_r, R; constructor|].
      specialize (IH ltac:(lia)). pose proof (pts_decoded data (i - S j)) as D.
      assert (Ne : rest (pts data (i - S j)) <> []) by (apply B; lia).
      replace (i - j)%nat with (S (i - S j)) in IH by lia. cbn [pts] in IH. rewrite read_pt_rest in IH.
      destruct (decode_utf8 _ _ _ Ne D) as (k & t' & E & K & W).
      { intros [X Y]. specialize (V (i - S j)%nat ltac:(lia)). unfold invalid in V. rewrite X, Y in V. discriminate. }
      rewrite E, W in *. rewrite skipn_app, skipn_all, Nat.sub_diag in IH. cbn [app skipn] in IH.
      constructor; assumption. }
    specialize (H i (Nat.le_refl i)). rewrite Nat.sub_diag in H. cbn [pts] in H. rewrite read_pt_rest in H. exact H.
  Qed.

  Lemma errlist_none filename es : errlist_err filename es = None <-> es = [].
  Proof. destruct es; cbn; split; congruence. Qed.

  Lemma start_errs data : utf8 data -> errs (start data) = [].
  Proof.
    intros U. unfold start, read. change (read_pt (pt (init_state data))) with (pts data 0).
    destruct (reach_utf8 data U (pts data 0) (Reach_start data)) as [_ V]. unfold invalid in V. rewrite V. reflexivity.
  Qed.
  Lemma sem_run data o : utf8 data -> sem RUN the_grammar g_File [] data o ->
    exists v ok en s, PE (parse_bound data) (str "File") g_File [] (start data) = PRes v ok en s /\ errs s = [] /\
      o = (if ok then Good v en (rest (pt s)) else Fail).
  Proof.
    intros U S.
    destruct (proj1 (sem_engine RUN the_grammar data grammar_lits U) _ _ _ _ S (parse_bound data) (str "File") (start data))
      as (v & ok & en & s & E & _ & N & O & _).
    - vm_compute. reflexivity.
    - apply init_inv.
    - apply start_rest.
    - apply start_errs. exact U.
    - apply parse_terminates.
    - eauto 8.
  Qed.
  Lemma run_sem data v ok en s : PE (parse_bound data) (str "File") g_File [] (start data) = PRes v ok en s -> errs s = [] ->
    sem RUN the_grammar g_File [] data (if ok then Good v en (rest (pt s)) else Fail) /\ Clean data (pt s).
  Proof.
    intros E N.
    destruct (proj1 (engine_sem RUN the_grammar data grammar_lits (parse_bound data)) (str "File") g_File [] (start data) v ok en s)
      as [S _]; auto; [apply init_inv|]. rewrite start_rest in S. split; [exact S|].
    pose proof (parse_effect RUN the_grammar data grammar_lits (parse_bound data) (str "File") g_File [] (start data)
      eq_refl (init_inv data)) as F. rewrite E in F. cbn [effect] in F. apply F. exact N.
  Qed.

  (** Parsing succeeds exactly when the text is well-formed and the grammar matches it. *)
  Lemma parse_ok filename data f : Parse gp filename data = Ok f <->
    utf8 data /\ exists en, sem RUN the_grammar g_File [] data (Good (VFile f) en []).
  Proof.
    split.
    - unfold Parse, parse_fuel. fold (start data).
      destruct (PE (parse_bound data) (str "File") g_File [] (start data)) as [|m rl s|v [] en s] eqn:E.
      + discriminate.
      + cbn [errs addErrAt]. destruct (errlist_err _ _) eqn:X; [discriminate|].
        apply errlist_none in X. destruct (errs s); discriminate.
      + destruct (errlist_err filename (errs s)) eqn:X; [discriminate|]. apply errlist_none in X.
        destruct v; try discriminate. intros H. inversion H; subst. destruct (run_sem data _ _ _ _ E X) as [S C].
        pose proof (sem_file_end _ _ _ _ S) as R. rewrite R in S. split; [eapply clean_end_utf8; eauto|eauto].
      + destruct (errs s) eqn:N; [cbn [errs addErrAt]; rewrite N; discriminate|]. rewrite <- N. destruct (errlist_err filename (errs s)) eqn:X; [discriminate|].
        apply errlist_none in X. congruence.
    - intros [U [en S]]. destruct (sem_run data _ U S) as (v & ok & en' & s & E & N & O).
      destruct ok; [|discriminate]. inversion O; subst.
      unfold Parse, parse_fuel. fold (start data). rewrite E, N. reflexivity.
  Qed.

  (** Parsing never panics. *)
  Lemma parse_total filename data : (exists f, Parse gp filename data = Ok f) \/ (exists e, Parse gp filename data = Err e).
  Proof.
    unfold Parse, parse_fuel. pose proof (parse_terminates data) as T. fold (start data).
    destruct (PE (parse_bound data) (str "File") g_File [] (start data)) as [|m rl s|v [] en s] eqn:E.
    - contradiction.
    - cbn [errs addErrAt]. destruct (errlist_err _ _) eqn:X; [right; eexists; reflexivity|].
      apply errlist_none in X. destruct (errs s); discriminate.
    - destruct (errlist_err filename (errs s)) eqn:X; [right; eexists; reflexivity|]. apply errlist_none in X.
      destruct (run_sem data _ _ _ _ E X) as [S _]. apply sem_file_val in S. destruct S as [f ->]. left. eexists. reflexivity.
    - right. destruct (errs s) eqn:N; [cbn [errs addErrAt]; rewrite N; eexists; reflexivity|]. rewrite <- N.
      destruct (errlist_err filename (errs s)) eqn:X; [eexists; reflexivity|]. apply errlist_none in X. congruence.
  Qed.
End Facts.
