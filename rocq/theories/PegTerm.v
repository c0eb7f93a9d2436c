(** Termination of the parser engine: how much fuel is enough. *)
From Verif Require Import Text GoAst Ast Utf8 Peg PegPoints.
From Coq Require Import NArith Arith Bool Lia.

Section Term.
  Context {A : Type}.
  Variable run_action : A -> text -> env -> ares.
  Variable grammar : text -> option (pexpr A).
  Variable data : text.
  Notation PE := (parse_expr run_action grammar).
  Notation SL := (star_loop run_action grammar).

  Hypothesis grammar_lits : forall n b, grammar n = Some b -> ascii_lits b = true.

  (** * Expressions whose success consumes input *)
  Variable cons_tab : text -> bool.
  Fixpoint consumes (e : pexpr A) : bool :=
    match e with
    | PAction _ e | PLabel _ e | PPlus e => consumes e
    | PChoice es => forallb consumes es
    | PSeq es => existsb consumes es
    | PNot _ | POpt _ | PStar _ => false
    | PRef n => cons_tab n
    | PLit rs _ => match rs with [] => false | _ => true end
    | PClass _ _ _ _ | PAny => true
    end.
  Hypothesis cons_ok : forall n b, grammar n = Some b -> cons_tab n = true -> consumes b = true.

  Definition shrinks (s : pstate) (r : pres) : Prop :=
    match r with PRes _ true _ s' => (left_ s' < left_ s)%nat | _ => True end.

  Lemma eff n rule e en s v ok en' s' : ascii_lits e = true -> Inv data s ->
    PE n rule e en s = PRes v ok en' s' -> Inv data s' /\ (left_ s' <= left_ s)%nat /\ (ok = false -> pt s' = pt s).
  Proof.
    intros L I E. pose proof (parse_effect run_action grammar data grammar_lits n rule e en s L I) as H.
    rewrite E in H. cbn in H. tauto.
  Qed.

  Lemma seq_le n rule es : forallb ascii_lits es = true -> forall vals en s sp v en' s', Inv data s ->
    seq_loop (PE n rule) sp es vals en s = PRes v true en' s' -> (left_ s' <= left_ s)%nat.
  Proof.
    induction es as [|e es IH]; intros L vals en s sp v en' s' I E; cbn [seq_loop] in E.
    - inversion E; subst. lia.
    - cbn in L. apply andb_true_iff in L. destruct L as [Le L].
      destruct (PE n rule e en s) as [|m rl s3|v3 [] en3 s3] eqn:E3; try discriminate.
      destruct (eff _ _ _ _ _ _ _ _ _ Le I E3) as (I3 & L3 & _).
      apply IH in E; auto. lia.
  Qed.

  Lemma shrink n : (forall rule e en s, ascii_lits e = true -> consumes e = true -> Inv data s -> shrinks s (PE n rule e en s)) /\
    (forall rule e vals s v ok en s', ascii_lits e = true -> consumes e = true -> Inv data s ->
       SL n rule e vals s = PRes v ok en s' -> v = VSlice vals \/ (left_ s' < left_ s)%nat).
  Proof.
    induction n as [|n [IHe IHs]]; [split; [intros; exact I|discriminate]|]. split.
    - intros rule e en s L C I. destruct e as [a e|es|l e|es|e|e|e|e|name|rs want|v cs rs inv|]; cbn [ascii_lits consumes] in L, C; try discriminate; step_engine.
      + pose proof (IHe rule e en s L C I) as H. destruct (PE n rule e en s) as [|m rl s3|v [] en' s3]; auto.
        destruct (run_action a _ en'); [exact H|exact H|exact Logic.I].
      + revert s I. induction es as [|e es IHes]; intros s I; cbn [choice_loop]; [exact Logic.I|].
        cbn in L, C. apply andb_true_iff in L, C. destruct L as [Le L], C as [Ce C].
        pose proof (IHe rule e [] s Le Ce I) as H. destruct (PE n rule e [] s) as [|m rl s3|v [] en' s3] eqn:E3; try exact H.
        destruct (eff _ _ _ _ _ _ _ _ _ Le I E3) as (I3 & L3 & _).
        specialize (IHes L C s3 I3). destruct (choice_loop (PE n rule) es en s3) as [|m rl s4|v4 [] en4 s4]; cbn in *; auto. lia.
      + pose proof (IHe rule e [] s L C I) as H. destruct (PE n rule e [] s) as [|m rl s3|v [] en' s3]; exact H.
      + generalize (pt s), (@nil val). revert en s I. induction es as [|e es IHes]; intros en s I sp vals; [discriminate|].
        cbn [seq_loop]. cbn in L, C. apply andb_true_iff in L. destruct L as [Le L]. apply orb_true_iff in C.
        pose proof (IHe rule e en s Le) as H. destruct (PE n rule e en s) as [|m rl s3|v [] en' s3] eqn:E3; try exact Logic.I.
        destruct (eff _ _ _ _ _ _ _ _ _ Le I E3) as (I3 & L3 & _).
        destruct (seq_loop (PE n rule) sp es (vals ++ [v]) en' s3) as [|m rl s4|v4 [] en4 s4] eqn:E4; try exact Logic.I.
        cbn [shrinks]. destruct C as [C|C].
        * specialize (H C I). cbn in H. apply seq_le in E4; auto. lia.
        * specialize (IHes L C en' s3 I3 sp (vals ++ [v])). rewrite E4 in IHes. cbn in IHes. lia.
      + destruct (star_effect run_action grammar data grammar_lits n rule e [] s L I) as [_ X].
        destruct (SL n rule e [] s) as [|m rl s3|v ok en' s3] eqn:E3; try exact Logic.I.
        destruct (X v ok en' s3 eq_refl) as [-> [l [-> _]]]. destruct (IHs rule e [] s _ _ _ _ L C I E3) as [H|H].
        * inversion H; subst. exact Logic.I.
        * cbn [app]. destruct l; [exact Logic.I|exact H].
      + destruct (grammar name) as [b|] eqn:Gr; [|exact Logic.I].
        pose proof (IHe name b [] s (grammar_lits name b Gr) (cons_ok name b Gr C) I) as H.
        destruct (PE n name b [] s) as [|m rl s3|v [] en' s3]; exact H.
      + unfold parse_lit. destruct (lit_loop rule rs s) as [b s1] eqn:E. 
        destruct (lit_loop_effect data rule rs s b s1 L I E) as (_ & _ & _ & H).
        destruct b; [|exact Logic.I]. destruct rs; [discriminate|]. cbn [shrinks].
        rewrite (left_eq _ _ (proj1 (failAt_core true (pos (pt s)) want s1))). apply H; [reflexivity|discriminate].
      + unfold parse_class. destruct (at_eof (pt s)) eqn:E; [exact Logic.I|]. destruct (xorb _ _); [|exact Logic.I].
        cbn [shrinks]. rewrite (left_eq _ _ (proj1 (failAt_core true (pos (pt s)) v _))).
        eapply read_left; [exact I|]. eapply not_eof; eassumption.
      + unfold parse_any. destruct (at_eof (pt s)) eqn:E; [exact Logic.I|].
        cbn [shrinks]. rewrite (left_eq _ _ (proj1 (failAt_core true (pos (pt s)) (str ".") _))).
        eapply read_left; [exact I|]. eapply not_eof; eassumption.
    - intros rule e vals s v ok en s' L C I E. rewrite sl_S in E.
      pose proof (IHe rule e [] s L C I) as H. destruct (PE n rule e [] s) as [|m rl s3|v3 [] en3 s3] eqn:E3; try discriminate.
      + destruct (eff _ _ _ _ _ _ _ _ _ L I E3) as (I3 & L3 & _).
        destruct (star_effect run_action grammar data grammar_lits n rule e (vals ++ [v3]) s3 L I3) as [F _].
        rewrite E in F. cbn in F, H. right. lia.
      + inversion E; subst. left. reflexivity.
  Qed.

  (** * Enough fuel *)
  Variable K : nat.
  Variable h_tab : text -> nat.
  Fixpoint height (e : pexpr A) : nat :=
    match e with
    | PAction _ e | PLabel _ e | PNot e | POpt e => S (height e)
    | PStar e | PPlus e => S (S (height e))
    | PChoice es => S (fold_right (fun e m => Nat.max (height e) m) 0%nat es)
    | PSeq es => S (fold_right (fun e m => if consumes e then height e else Nat.max (height e) m) 0%nat es)
    | PRef n => S (h_tab n)
    | PLit _ _ | PClass _ _ _ _ | PAny => 1
    end.
  (** Bodies of repetitions consume; no expression is taller than [K]. *)
  Fixpoint bounded (e : pexpr A) : bool :=
    (height e <=? K)%nat &&
    match e with
    | PAction _ e | PLabel _ e | PNot e | POpt e => bounded e
    | PStar e | PPlus e => consumes e && bounded e
    | PChoice es | PSeq es => forallb bounded es
    | _ => true
    end.
  Hypothesis h_ok : forall n b, grammar n = Some b -> bounded b = true /\ (height b <= h_tab n)%nat.
  Hypothesis K_pos : (1 <= K)%nat.

  Lemma bounded_height e : bounded e = true -> (height e <= K)%nat.
  Proof. destruct e; cbn [bounded]; rewrite ?andb_true_iff, Nat.leb_le; tauto. Qed.

  Definition fuelled (r : pres) : Prop := r <> OutOfFuel.

  Lemma enough n : (forall rule e en s, ascii_lits e = true -> bounded e = true -> Inv data s ->
      (height e + K * left_ s <= n)%nat -> fuelled (PE n rule e en s)) /\
    (forall rule e vals s, ascii_lits e = true -> bounded e = true -> consumes e = true -> Inv data s ->
      (1 + height e + K * left_ s <= n)%nat -> fuelled (SL n rule e vals s)).
  Proof.
    induction n as [|n [IHe IHs]].
    { split; intros; [|lia]. destruct e; cbn [height] in *; lia. }
    split.
    - intros rule e en s L B I F. destruct e as [a e|es|l e|es|e|e|e|e|name|rs want|v cs rs inv|];
        cbn [ascii_lits bounded] in L, B; rewrite ?andb_true_iff in B; cbn [height] in F; step_engine.
      + assert (H : fuelled (PE n rule e en s)) by (apply IHe; try tauto; lia).
        destruct (PE n rule e en s) as [|m rl s3|v [] en' s3]; auto. destruct (run_action _ _ _); discriminate.
      + destruct B as [_ B]. revert s I F. induction es as [|e es IHes]; intros s I F; cbn [choice_loop]; [discriminate|].
        cbn [forallb] in L, B. apply andb_true_iff in L, B. destruct L as [Le L], B as [Be B]. cbn [fold_right] in F.
        assert (H : fuelled (PE n rule e [] s)) by (apply IHe; auto; lia).
        destruct (PE n rule e [] s) as [|m rl s3|v [] en' s3] eqn:E3; try exact H; try discriminate.
        destruct (eff _ _ _ _ _ _ _ _ _ Le I E3) as (I3 & L3 & P3). apply IHes; auto.
        rewrite (left_eq _ _ (P3 eq_refl)). lia.
      + assert (H : fuelled (PE n rule e [] s)) by (apply IHe; try tauto; lia).
        destruct (PE n rule e [] s) as [|m rl s3|v [] en' s3]; auto; discriminate.
      + destruct B as [_ B]. generalize (pt s), (@nil val).
        assert (G : forall es, forallb ascii_lits es = true -> forallb bounded es = true -> forall en s sp vals, Inv data s ->
          (K + K * left_ s <= n)%nat -> fuelled (seq_loop (PE n rule) sp es vals en s)).
        { clear - IHe grammar_lits. induction es as [|e es IHes]; intros L B en s sp vals I F; cbn [seq_loop]; [discriminate|].
          cbn [forallb] in L, B. apply andb_true_iff in L, B. destruct L as [Le L], B as [Be B].
          pose proof (bounded_height e Be).
          assert (H' : fuelled (PE n rule e en s)) by (apply IHe; auto; lia).
          destruct (PE n rule e en s) as [|m rl s3|v [] en' s3] eqn:E3; try exact H'; try discriminate.
          destruct (eff _ _ _ _ _ _ _ _ _ Le I E3) as (I3 & L3 & P3). apply IHes; auto. nia. }
        revert en s I F. induction es as [|e es IHes]; intros en s I F sp vals; cbn [seq_loop]; [discriminate|].
        cbn [forallb] in L, B. apply andb_true_iff in L, B. destruct L as [Le L], B as [Be B]. cbn [fold_right] in F.
        assert (H : fuelled (PE n rule e en s)) by (apply IHe; auto; destruct (consumes e); lia).
        destruct (PE n rule e en s) as [|m rl s3|v [] en' s3] eqn:E3; try exact H; try discriminate.
        destruct (eff _ _ _ _ _ _ _ _ _ Le I E3) as (I3 & L3 & P3). destruct (consumes e) eqn:Ce.
        * apply G; auto. pose proof (proj1 (shrink n) rule e en s Le Ce I) as Sh. rewrite E3 in Sh. cbn in Sh. nia.
        * apply IHes; auto. nia.
      + assert (H : fuelled (PE n rule e [] (set_invert (negb (fail_invert s)) s))).
        { apply IHe; try tauto. apply set_invert_inv; exact I. change (left_ (set_invert (negb (fail_invert s)) s)) with (left_ s). lia. }
        destruct (PE n rule e [] _) as [|m rl s3|v ok en' s3]; auto; discriminate.
      + assert (H : fuelled (PE n rule e [] s)) by (apply IHe; try tauto; lia).
        destruct (PE n rule e [] s) as [|m rl s3|v ok en' s3]; auto; discriminate.
      + assert (H : fuelled (SL n rule e [] s)) by (apply IHs; try tauto; lia).
        destruct (SL n rule e [] s) as [|m rl s3|v ok en' s3]; auto; discriminate.
      + assert (H : fuelled (SL n rule e [] s)) by (apply IHs; try tauto; lia).
        destruct (SL n rule e [] s) as [|m rl s3|v ok en' s3]; auto.
        destruct v; try discriminate. destruct l; discriminate.
      + destruct (grammar name) as [b|] eqn:Gr; [|discriminate].
        destruct (h_ok name b Gr) as [Bb Hb].
        assert (H : fuelled (PE n name b [] s)) by (apply IHe; auto; [eapply grammar_lits; eauto|lia]).
        destruct (PE n name b [] s) as [|m rl s3|v ok en' s3]; auto; discriminate.
      + destruct (parse_lit rule rs want s) as [[x ok] s']. discriminate.
      + destruct (parse_class rule v cs rs inv s) as [[x ok] s']. discriminate.
      + destruct (parse_any rule s) as [[x ok] s']. discriminate.
    - intros rule e vals s L B C I F. rewrite sl_S.
      assert (H : fuelled (PE n rule e [] s)) by (apply IHe; auto; lia).
      destruct (PE n rule e [] s) as [|m rl s3|v [] en' s3] eqn:E3; try exact H; try discriminate.
      destruct (eff _ _ _ _ _ _ _ _ _ L I E3) as (I3 & L3 & P3). apply IHs; auto.
      pose proof (proj1 (shrink n) rule e [] s L C I) as Sh. rewrite E3 in Sh. cbn in Sh. nia.
  Qed.
End Term.
