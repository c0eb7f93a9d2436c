(** How far the parser looks: everything before the farthest failure is decided by
    the bytes up to a little after it (for C51). *)
From Verif Require Import Text GoAst Ast Utf8 Peg PegPoints.
From Coq Require Import NArith Arith Bool Lia.
Open Scope N_scope.

(** ** Reading is local *)
Lemma decode_width4 t : (snd (decode_rune t) <= 4)%nat.
Proof.
  destruct t as [|b0 t]; cbn; [lia|]. repeat (match goal with |- context [if ?b then _ else _] => destruct b | |- context [match ?l with [] => _ | _ => _ end] => destruct l end; cbn; try lia).
Qed.
Lemma decode_local t t' : firstn 4 t = firstn 4 t' -> decode_rune t = decode_rune t'.
Proof.
  intros E. assert (H : forall t, decode_rune t = decode_rune (firstn 4 t)); [|rewrite (H t), (H t'), E; reflexivity].
  clear. intros [|a [|b [|c [|d t]]]]; reflexivity.
Qed.
Lemma firstn_skipn_eq {A} (l l' : list A) n m : firstn (n + m) l = firstn (n + m) l' -> firstn m (skipn n l) = firstn m (skipn n l').
Proof.
  revert l l'. induction n as [|n IH]; intros l l' E; [exact E|].
  destruct l as [|a l], l' as [|b l']; cbn [plus firstn skipn] in *; try discriminate; [reflexivity|].
  inversion E. apply IH. assumption.
Qed.
Lemma firstn_weaken {A} (l l' : list A) n m : (m <= n)%nat -> firstn n l = firstn n l' -> firstn m l = firstn m l'.
Proof. intros L E. rewrite <- (Nat.min_l m n L), <- !firstn_firstn, E. reflexivity. Qed.

Section Fuel.
  Context {A : Type}.
  Variable run_action : A -> text -> env -> ares.
  Variable grammar : text -> option (pexpr A).
  Notation PE := (parse_expr run_action grammar).
  Notation SL := (star_loop run_action grammar).

  (** More fuel does not change a finished run. *)
  Lemma fuel_mono n : forall m, (n <= m)%nat ->
    (forall rule e en s, PE n rule e en s <> OutOfFuel -> PE m rule e en s = PE n rule e en s) /\
    (forall rule e vals s, SL n rule e vals s <> OutOfFuel -> SL m rule e vals s = SL n rule e vals s).
  Proof.
    induction n as [|n IH]; intros m L; [split; intros; exfalso; apply H; reflexivity|].
    destruct m as [|m]; [lia|]. destruct (IH m ltac:(lia)) as [IHe IHs]. split.
    - intros rule e en s. destruct e as [a e|es|l e|es|e|e|e|e|name|rs want|v cs rs inv|].
      + rewrite !pe_action. intros H. rewrite IHe; [reflexivity|]. intros X. rewrite X in H. apply H. reflexivity.
      + rewrite !pe_choice. revert en s. induction es as [|e es IHes]; intros en s; cbn [choice_loop]; [reflexivity|].
        intros H. rewrite IHe by (intros X; rewrite X in H; apply H; reflexivity).
        destruct (PE n rule e [] s) as [|m1 rl s3|v [] en' s3]; try reflexivity. apply IHes. exact H.
      + rewrite !pe_label. intros H. rewrite IHe; [reflexivity|]. intros X. rewrite X in H. apply H. reflexivity.
      + rewrite !pe_seq. generalize (pt s) as p. intros p. generalize (@nil val) as vals. revert en s. induction es as [|e es IHes]; intros en s vals; cbn [seq_loop]; [reflexivity|].
        intros H. rewrite IHe by (intros X; rewrite X in H; apply H; reflexivity).
        destruct (PE n rule e en s) as [|m1 rl s3|v [] en' s3]; try reflexivity. apply IHes. exact H.
      + rewrite !pe_not. intros H. rewrite IHe; [reflexivity|]. intros X. rewrite X in H. apply H. reflexivity.
      + rewrite !pe_opt. intros H. rewrite IHe; [reflexivity|]. intros X. rewrite X in H. apply H. reflexivity.
      + rewrite !pe_star. intros H. rewrite IHs; [reflexivity|]. intros X. rewrite X in H. apply H. reflexivity.
      + rewrite !pe_plus. intros H. rewrite IHs; [reflexivity|]. intros X. rewrite X in H. apply H. reflexivity.
      + rewrite !pe_ref. intros H. destruct (grammar name); [|reflexivity]. rewrite IHe; [reflexivity|]. intros X. rewrite X in H. apply H. reflexivity.
      + reflexivity.
      + reflexivity.
      + reflexivity.
    - intros rule e vals s. rewrite !sl_S. intros H.
      rewrite IHe by (intros X; rewrite X in H; apply H; reflexivity).
      destruct (PE n rule e [] s) as [|m1 rl s3|v [] en' s3]; try reflexivity. apply IHs. exact H.
  Qed.
  Lemma fuel_same n m rule e en s : PE n rule e en s <> OutOfFuel -> PE m rule e en s <> OutOfFuel -> PE n rule e en s = PE m rule e en s.
  Proof.
    intros Hn Hm. rewrite <- (proj1 (fuel_mono n (n + m) ltac:(lia)) rule e en s Hn).
    apply (proj1 (fuel_mono m (n + m) ltac:(lia))). exact Hm.
  Qed.
End Fuel.

(** Errors of the engine name their rule. *)
Definition tagged (e : perror) : Prop := e_rule e <> None \/ e_inner e = invalid_encoding.
Definition fpos (s : pstate) : N := offset (fail_pos s).
Definition off (s : pstate) : N := offset (pos (pt s)).

Lemma failAt_fpos b q m s : fpos s <= fpos (failAt b q m s) /\ fail_invert (failAt b q m s) = fail_invert s /\
  (b = fail_invert s -> offset q <= fpos (failAt b q m s)).
Proof.
  unfold failAt, fpos. destruct (Bool.eqb b (fail_invert s)) eqn:B.
  - destruct (N.ltb_spec (offset q) (offset (fail_pos s))); [split; [lia|split; [reflexivity|lia]]|].
    destruct (N.ltb_spec (offset (fail_pos s)) (offset q)); cbn; split; try lia; split; try reflexivity; lia.
  - split; [lia|]. split; [reflexivity|]. intros ->. rewrite eqb_reflx in B. discriminate.
Qed.
Lemma read_fpos r s : fail_pos (read r s) = fail_pos s /\ fail_invert (read r s) = fail_invert s /\ fail_expected (read r s) = fail_expected s.
Proof. unfold read. destruct (_ && _); auto. Qed.
Lemma restore_invert p s : fail_invert (restore p s) = fail_invert s /\ fail_expected (restore p s) = fail_expected s.
Proof. unfold restore. destruct (_ =? _); auto. Qed.
Lemma restore_fpos p s : fpos (restore p s) = fpos s.
Proof. unfold fpos. rewrite restore_fail. reflexivity. Qed.
Lemma read_tagged r s : r <> None -> Forall tagged (errs s) -> Forall tagged (errs (read r s)).
Proof.
  intros R H. unfold read. destruct (_ && _); [|exact H]. cbn. apply Forall_app. split; [exact H|].
  constructor; [|constructor]. left. exact R.
Qed.
Lemma lit_loop_fpos rule rs : forall s b s1, lit_loop rule rs s = (b, s1) ->
  fail_pos s1 = fail_pos s /\ fail_invert s1 = fail_invert s /\ (Forall tagged (errs s) -> Forall tagged (errs s1)).
Proof.
  induction rs as [|r rs IH]; intros s b s1 E; cbn [lit_loop] in E; [inversion E; subst; auto|].
  destruct (rn (pt s) =? r); [|inversion E; subst; auto].
  apply IH in E. destruct (read_fpos (Some rule) s) as (X & Y & _). destruct E as (E1 & E2 & E3). split; [congruence|]. split; [congruence|].
  intros H. apply E3, read_tagged; [discriminate|exact H].
Qed.

Section Local.
  Context {A : Type}.
  Variable run_action : A -> text -> env -> ares.
  Variable grammar : text -> option (pexpr A).
  Notation PE := (parse_expr run_action grammar).
  Notation SL := (star_loop run_action grammar).

  (** A single look at the input: at most three characters. *)
  Definition term (e : pexpr A) : bool :=
    match e with PLit rs _ => (List.length rs <=? 3)%nat | PClass _ _ _ _ | PAny => true | _ => false end.
  (** Negations are of single looks, choices are not empty, references are defined. *)
  Fixpoint tame (e : pexpr A) : bool :=
    match e with
    | PAction _ e | PLabel _ e | POpt e | PStar e | PPlus e => tame e
    | PNot e => term e
    | PChoice [] => false
    | PChoice es | PSeq es => forallb tame es
    | PRef n => match grammar n with Some _ => true | None => false end
    | e => term e
    end.
  Hypothesis grammar_tame : forall n b, grammar n = Some b -> tame b = true.
  Hypothesis grammar_lits : forall n b, grammar n = Some b -> ascii_lits b = true.

  Lemma tame_choice es : tame (PChoice es) = true -> es <> [] /\ forallb tame es = true.
  Proof. destruct es; [discriminate|]. intros H. split; [discriminate|exact H]. Qed.

  (** Terminals: where failures are recorded. *)
  Lemma term_prog n rule e en s : term e = true -> match PE (S n) rule e en s with
    | PRes v ok en1 s1 => en1 = en /\ fail_invert s1 = fail_invert s /\ fpos s <= fpos s1 /\ (ok = fail_invert s -> off s <= fpos s1) /\
        (Forall tagged (errs s) -> Forall tagged (errs s1))
    | _ => False end.
  Proof.
    assert (Fail : forall want v, match PRes v false en (failAt false (pos (pt s)) want s) with
      | PRes v ok en1 s1 => en1 = en /\ fail_invert s1 = fail_invert s /\ fpos s <= fpos s1 /\ (ok = fail_invert s -> off s <= fpos s1) /\
        (Forall tagged (errs s) -> Forall tagged (errs s1)) | _ => False end).
    { intros want v. destruct (failAt_fpos false (pos (pt s)) want s) as (X & Y & Z). destruct (failAt_core false (pos (pt s)) want s) as [_ C].
      rewrite C. auto. }
    assert (Step : forall want v, match PRes v true en (failAt true (pos (pt s)) want (read (Some rule) s)) with
      | PRes v ok en1 s1 => en1 = en /\ fail_invert s1 = fail_invert s /\ fpos s <= fpos s1 /\ (ok = fail_invert s -> off s <= fpos s1) /\
        (Forall tagged (errs s) -> Forall tagged (errs s1)) | _ => False end).
    { intros want v. destruct (read_fpos (Some rule) s) as (R1 & R2 & _).
      destruct (failAt_fpos true (pos (pt s)) want (read (Some rule) s)) as (X & Y & Z).
      destruct (failAt_core true (pos (pt s)) want (read (Some rule) s)) as [_ C]. rewrite C.
      unfold fpos in *. rewrite R1 in X. rewrite R2 in Y, Z. split; [reflexivity|]. split; [exact Y|]. split; [exact X|]. split; [exact Z|].
      apply read_tagged. discriminate. }
    destruct e; try discriminate; intros T; step_engine.
    - unfold parse_lit. destruct (lit_loop rule runes s) as [b s1] eqn:E. apply lit_loop_fpos in E. destruct E as (E1 & E2 & E3).
      destruct b.
      + destruct (failAt_fpos true (pos (pt s)) want s1) as (X & Y & Z). destruct (failAt_core true (pos (pt s)) want s1) as [_ C]. rewrite C.
        unfold fpos in *. rewrite E1 in X. rewrite E2 in Y, Z. split; [reflexivity|]. auto.
      + destruct (failAt_fpos false (pos (pt s)) want s1) as (X & Y & Z). destruct (failAt_core false (pos (pt s)) want s1) as [_ C].
        unfold fpos in *. rewrite restore_errs, restore_fail, (proj1 (restore_invert _ _)), C. rewrite E1 in X. rewrite E2 in Y, Z. split; [reflexivity|]. auto.
    - unfold parse_class. cbv zeta. destruct (at_eof (pt s)); [exact (Fail _ VNil)|]. destruct (xorb _ _); [exact (Step _ VNil)|exact (Fail _ VNil)].
    - unfold parse_any. cbv zeta. destruct (at_eof (pt s)); [exact (Fail _ VNil)|]. exact (Step _ VNil).
  Qed.

  (** Failures move forward; a failed match has failed somewhere at or after its start. *)
  Definition prog (s : pstate) (r : pres) : Prop :=
    match r with
    | OutOfFuel => True
    | PPanic _ _ s1 => Forall tagged (errs s) -> Forall tagged (errs s1)
    | PRes _ ok _ s1 => fail_invert s1 = false /\ fpos s <= fpos s1 /\ (ok = false -> off s <= fpos s1) /\ off s <= off s1 /\
        (Forall tagged (errs s) -> Forall tagged (errs s1))
    end.
  Section Prog.
    Variable data : text.
    Lemma left_off s s1 : Inv data s -> Inv data s1 -> (left_ s1 <= left_ s)%nat -> off s <= off s1.
    Proof.
      intros I I1 L. destruct (Reach_rest _ _ (inv_pt _ _ I)) as [E B]. destruct (Reach_rest _ _ (inv_pt _ _ I1)) as [E1 B1].
      unfold left_, off in *. rewrite E, E1, !skipn_length in L. lia.
    Qed.
    Lemma off_eq s s1 : pt s1 = pt s -> off s1 = off s.
    Proof. unfold off. congruence. Qed.

    Lemma engine_prog n :
      (forall rule e en s, tame e = true -> ascii_lits e = true -> Inv data s -> fail_invert s = false -> prog s (PE n rule e en s)) /\
      (forall rule e vals s, tame e = true -> ascii_lits e = true -> Inv data s -> fail_invert s = false -> prog s (SL n rule e vals s)).
    Proof.
      induction n as [|n [IHe IHs]]; [split; intros; exact I|].
      assert (EffP : forall rule e en s, ascii_lits e = true -> Inv data s -> effect data s (PE n rule e en s)) by (intros; apply parse_effect; auto).
      assert (EffS : forall rule e en s, ascii_lits e = true -> Inv data s -> effect data s (SL n rule e en s)) by (intros; apply star_effect; auto).
      split.
      - intros rule e en s T L I F. destruct (term e) eqn:Te.
        { pose proof (term_prog n rule e en s Te) as H. pose proof (parse_effect run_action grammar data grammar_lits (S n) rule e en s L I) as Ef.
          destruct (PE (S n) rule e en s) as [|m rl s1|v ok en1 s1]; try contradiction. cbn [prog]. destruct H as (_ & H1 & H2 & H3 & H4).
          rewrite F in *. split; [exact H1|]. split; [exact H2|]. split; [exact H3|]. split; [|exact H4].
          destruct Ef as (I1 & _ & Lf & _). eapply left_off; eauto. }
        destruct e as [a e|es|l e|es|e|e|e|e|name|rs want|v cs rs inv|]; step_engine; try discriminate Te; try (cbn [tame] in T; congruence).
        + pose proof (IHe rule e en s T L I F) as H. destruct (PE n rule e en s) as [|m rl s3|v [] en' s3]; auto.
          cbn [prog] in H. destruct H as (H1 & H2 & H3 & H4 & H5).
          destruct (run_action a _ en') as [v'|m v'|m]; cbn [prog]; [repeat split; auto; discriminate|..].
          * split; [exact H1|]. split; [exact H2|]. split; [discriminate|]. split; [exact H4|]. intros Tg. cbn. apply Forall_app. split; [auto|].
            constructor; [|constructor]. left. discriminate.
          * exact H5.
        + apply tame_choice in T. destruct T as [Ne T]. cbn [ascii_lits] in L.
          assert (H : forall es en s, forallb tame es = true -> forallb ascii_lits es = true -> Inv data s -> fail_invert s = false ->
            match choice_loop (PE n rule) es en s with
            | PRes _ ok _ s1 => fail_invert s1 = false /\ fpos s <= fpos s1 /\ (es <> [] -> ok = false -> off s <= fpos s1) /\ off s <= off s1 /\
               (Forall tagged (errs s) -> Forall tagged (errs s1))
            | r => prog s r end).
          { clear - IHe EffP. induction es as [|e es IHes]; intros en s T L I F; cbn [choice_loop].
            - split; [exact F|]. split; [lia|]. split; [congruence|]. split; [lia|auto].
            - cbn in T, L. apply andb_true_iff in T, L. destruct T as [Te T], L as [Le L].
              pose proof (IHe rule e [] s Te Le I F) as H. pose proof (EffP rule e [] s Le I) as Ef.
              destruct (PE n rule e [] s) as [|m rl s3|v [] en' s3]; auto.
              + cbn [prog] in H. destruct H as (H1 & H2 & H3 & H4 & H5). repeat split; auto.
              + cbn [prog effect] in H, Ef. destruct H as (H1 & H2 & H3 & H4 & H5), Ef as (I3 & _ & _ & P). specialize (P eq_refl).
                specialize (IHes en s3 T L I3 H1). destruct (choice_loop (PE n rule) es en s3) as [|m rl s4|v4 ok4 en4 s4]; auto; cbn [prog] in *; [auto|].
                destruct IHes as (K1 & K2 & K3 & K4 & K5). specialize (H3 eq_refl). repeat split; auto; intros; lia. }
          specialize (H es en s T L I F). destruct (choice_loop (PE n rule) es en s) as [|m rl s4|v4 ok4 en4 s4]; auto.
          cbn [prog]. destruct H as (H1 & H2 & H3 & H4 & H5). repeat split; auto.
        + pose proof (IHe rule e [] s T L I F) as H. destruct (PE n rule e [] s) as [|m rl s3|v [] en' s3]; exact H.
        + cbn [tame ascii_lits] in T, L.
          assert (H : forall s0 es vals en s, Inv data s0 -> forallb tame es = true -> forallb ascii_lits es = true -> Inv data s -> fail_invert s = false ->
            off s0 <= off s -> fpos s0 <= fpos s -> (Forall tagged (errs s0) -> Forall tagged (errs s)) ->
            prog s0 (seq_loop (PE n rule) (pt s0) es vals en s)).
          { clear - IHe EffP. intros s0. induction es as [|e es IHes]; intros vals en s I0 T L I F O P G; cbn [seq_loop].
            - cbn [prog]. repeat split; auto; discriminate.
            - cbn in T, L. apply andb_true_iff in T, L. destruct T as [Te T], L as [Le L].
              pose proof (IHe rule e en s Te Le I F) as H. pose proof (EffP rule e en s Le I) as Ef.
              destruct (PE n rule e en s) as [|m rl s3|v [] en' s3]; cbn [prog effect] in *; auto.
              + destruct H as (H1 & H2 & H3 & H4 & H5), Ef as (I3 & _ & _ & _). apply IHes; auto; lia.
              + destruct H as (H1 & H2 & H3 & H4 & H5), Ef as (I3 & _ & _ & _). specialize (H3 eq_refl).
                rewrite restore_errs, (proj1 (restore_invert _ _)). rewrite !restore_fpos.
                split; [exact H1|]. split; [lia|]. split; [intros; lia|]. split; [|auto].
                enough (X : pt (restore (pt s0) s3) = pt s0) by (rewrite (off_eq _ _ X); lia). eapply restore_pt; [apply I3|apply I0]. }
          apply H; auto; lia.
        + cbn [tame] in T. destruct n as [|n]; [exact Logic.I|].
          pose proof (term_prog n rule e [] (set_invert (negb (fail_invert s)) s) T) as H.
          pose proof (EffP rule e [] (set_invert (negb (fail_invert s)) s) L (set_invert_inv _ _ _ I)) as Ef.
          destruct (PE (S n) rule e [] (set_invert (negb (fail_invert s)) s)) as [|m rl s3|v ok en' s3]; try contradiction.
          rewrite F in *. cbn [negb set_invert fail_invert] in H. destruct H as (_ & H1 & H2 & H3 & H5). cbn [effect] in Ef. destruct Ef as (I3 & _ & _ & _).
          cbn [prog]. rewrite restore_errs, (proj1 (restore_invert _ _)). rewrite !restore_fpos. cbn [set_invert fail_invert errs].
          rewrite H1. split; [reflexivity|]. split; [exact H2|]. split; [destruct ok; [intros _; apply (H3 eq_refl)|discriminate]|].
          split; [|exact H5]. enough (X : pt (restore (pt s) (set_invert (negb (fail_invert s3)) s3)) = pt s) by (rewrite H1 in X; rewrite (off_eq _ _ X); lia). eapply restore_pt; [apply I3|apply I].
        + pose proof (IHe rule e [] s T L I F) as H. destruct (PE n rule e [] s) as [|m rl s3|v ok en' s3]; auto.
          cbn [prog] in *. destruct H as (H1 & H2 & H3 & H4 & H5). repeat split; auto; discriminate.
        + pose proof (IHs rule e [] s T L I F) as H. destruct (SL n rule e [] s) as [|m rl s3|v ok en' s3]; exact H.
        + destruct n as [|n]; [exact Logic.I|].
          pose proof (IHs rule e [] s T L I F) as H. destruct (star_effect run_action grammar data grammar_lits (S n) rule e [] s L I) as [Ef X].
          destruct (SL (S n) rule e [] s) as [|m rl s3|v ok en' s3] eqn:E; auto.
          destruct (X v ok en' s3 eq_refl) as [-> [l [-> Hl]]]. cbn [app]. destruct l; [|exact H].
          specialize (Hl eq_refl). cbn [prog] in *. destruct H as (H1 & H2 & _ & H4 & H5). split; [exact H1|]. split; [exact H2|]. split; [|split; auto].
          intros _. rewrite sl_S in E.
          assert (IHn : prog s (PE n rule e [] s)).
          { destruct (PE n rule e [] s) as [|m0 rl0 s0|v0 ok0 en0 s0] eqn:E0; [exact Logic.I|discriminate|].
            rewrite <- E0. rewrite <- (proj1 (fuel_mono run_action grammar n (S n) ltac:(lia)) rule e [] s); [|rewrite E0; discriminate]. apply IHe; auto. }
          destruct (PE n rule e [] s) as [|m0 rl0 s0|v0 [] en0 s0] eqn:E0; try discriminate.
          * pose proof (parse_effect run_action grammar data grammar_lits n rule e [] s L I) as F0. rewrite E0 in F0. destruct F0 as (I0 & _).
            destruct (star_effect run_action grammar data grammar_lits n rule e ([] ++ [v0]) s0 L I0) as [_ Y]. destruct (Y _ _ _ _ E) as [_ [l [Z _]]]. discriminate.
          * inversion E; subst. cbn [prog] in IHn. apply IHn. reflexivity.
        + cbn [tame] in T. destruct (grammar name) as [b|] eqn:Gr; [|discriminate].
          pose proof (IHe name b [] s (grammar_tame name b Gr) (grammar_lits name b Gr) I F) as H. destruct (PE n name b [] s) as [|m rl s3|v ok en' s3]; exact H.
      - intros rule e vals s T L I F. rewrite sl_S.
        pose proof (IHe rule e [] s T L I F) as H. pose proof (EffP rule e [] s L I) as Ef. destruct (PE n rule e [] s) as [|m rl s3|v [] en' s3]; auto.
        + cbn [prog effect] in H, Ef. destruct H as (H1 & H2 & H3 & H4 & H5), Ef as (I3 & _).
          pose proof (IHs rule e (vals ++ [v]) s3 T L I3 H1) as K.
          destruct (star_effect run_action grammar data grammar_lits n rule e (vals ++ [v]) s3 L I3) as [_ X].
          destruct (SL n rule e (vals ++ [v]) s3) as [|m rl s4|v4 ok4 en4 s4]; cbn [prog] in *; auto.
          destruct (X v4 ok4 en4 s4 eq_refl) as [-> _]. destruct K as (K1 & K2 & K3 & K4 & K5). repeat split; auto; try discriminate; lia.
        + cbn [prog] in *. destruct H as (H1 & H2 & H3 & H4 & H5). repeat split; auto; discriminate.
    Qed.
  End Prog.

  (** ** Two texts that agree up to eight bytes after [k] *)
  Section Two.
    Variables data data' : text.
    Variable k : N.
    Hypothesis agree : firstn (N.to_nat k + 8) data = firstn (N.to_nat k + 8) data'.

    Definition Rs (s s' : pstate) : Prop :=
      Inv data s /\ Inv data' s' /\ pos (pt s) = pos (pt s') /\ errs s = errs s' /\
      fail_pos s = fail_pos s' /\ fail_expected s = fail_expected s' /\ fail_invert s = fail_invert s'.

    Lemma near p p' : Reach data p -> Reach data' p' -> pos p = pos p' -> offset (pos p) <= k + 4 -> rn p = rn p' /\ w p = w p'.
    Proof.
      intros R R' E O. pose proof (Reach_decoded _ _ R) as D. pose proof (Reach_decoded _ _ R') as D'.
      destruct (Reach_rest _ _ R) as [X _]. destruct (Reach_rest _ _ R') as [X' _].
      enough (Y : decode_rune (rest p) = decode_rune (rest p')) by (rewrite D, D' in Y; inversion Y; auto).
      apply decode_local. rewrite X, X', <- E. apply firstn_skipn_eq. eapply firstn_weaken; [|exact agree]. lia.
    Qed.
    Lemma near_eof p p' : Reach data p -> Reach data' p' -> pos p = pos p' -> offset (pos p) <= k + 4 -> at_eof p = at_eof p'.
    Proof. intros R R' E O. destruct (near p p' R R' E O) as [X Y]. unfold at_eof. rewrite X, Y. reflexivity. Qed.
    Lemma Rs_pt s s' : Rs s s' -> off s = off s'.
    Proof. intros (_ & _ & E & _). unfold off. congruence. Qed.
    Lemma Rs_rest s s' : Rs s s' -> off s <= k + 4 -> rest (pt s) <> [] -> rest (pt s') <> [].
    Proof.
      intros (I & I' & E & _) O N N'. apply N. apply (Reach_eof data); [apply I|]. rewrite (near_eof (pt s) (pt s')); [|apply I|apply I'|exact E|exact O].
      apply (Reach_eof data'); [apply I'|exact N'].
    Qed.
    (** The next point is read from the same bytes when it starts early enough. *)
    Lemma read_near p p' : Reach data p -> Reach data' p' -> rest p <> [] -> rest p' <> [] -> pos p = pos p' ->
      offset (pos p) + N.of_nat (w p) <= k + 4 -> pos (read_pt p) = pos (read_pt p') /\ rn (read_pt p) = rn (read_pt p') /\ w (read_pt p) = w (read_pt p').
    Proof.
      intros R R' Ne Ne' E O. destruct (near p p' R R' E ltac:(lia)) as [_ Ew].
      assert (D : decode_rune (rest (read_pt p)) = decode_rune (rest (read_pt p'))).
      { apply decode_local. destruct (Reach_rest _ _ (Reach_read _ _ R Ne)) as [X _]. destruct (Reach_rest _ _ (Reach_read _ _ R' Ne')) as [X' _].
        rewrite X, X', !read_pt_offset, <- E, <- Ew. apply firstn_skipn_eq. eapply firstn_weaken; [|exact agree]. lia. }
      rewrite !read_pt_rest in D. unfold read_pt. rewrite <- E, <- Ew in *. rewrite <- D. destruct (decode_rune (skipn (w p) (rest p))) as [c n]. auto.
    Qed.
    Lemma read_Rs r s s' : Rs s s' -> rest (pt s) <> [] -> off s + N.of_nat (w (pt s)) <= k + 4 -> Rs (read r s) (read r s').
    Proof.
      intros H Ne O. pose proof (Rs_rest _ _ H ltac:(lia) Ne) as Ne'. destruct H as (I & I' & E & H1 & H2 & H3 & H4).
      destruct (read_near (pt s) (pt s') (inv_pt _ _ I) (inv_pt _ _ I') Ne Ne' E O) as (P & R & W).
      destruct (read_fpos r s) as (X1 & X2 & X3), (read_fpos r s') as (Y1 & Y2 & Y3).
      split; [apply read_inv; assumption|]. split; [apply read_inv; assumption|]. split; [rewrite !read_pt_eq; exact P|].
      split; [|repeat split; congruence]. unfold read. rewrite <- R, <- W, <- P. destruct (_ && _); cbn; [rewrite H1; reflexivity|exact H1].
    Qed.
    Lemma failAt_Rs b p p' m s s' : Rs s s' -> Reach data p -> Reach data' p' -> pos p = pos p' -> Rs (failAt b (pos p) m s) (failAt b (pos p') m s').
    Proof.
      intros (I & I' & E & H1 & H2 & H3 & H4) R R' P.
      split; [apply failAt_inv; assumption|]. split; [apply failAt_inv; assumption|].
      destruct (failAt_core b (pos p) m s) as [C1 C2], (failAt_core b (pos p') m s') as [C1' C2']. rewrite C1, C1', C2, C2'.
      split; [exact E|]. split; [exact H1|]. unfold failAt. rewrite P, H2, H3, H4. destruct (Bool.eqb b (fail_invert s')); [|auto].
      destruct (_ <? _); [auto|]. destruct (_ <? _); cbn; auto.
    Qed.
    Lemma addErrAt_Rs m p p' r x s s' : Rs s s' -> Reach data p -> Reach data' p' -> pos p = pos p' -> Rs (addErrAt m (pos p) r x s) (addErrAt m (pos p') r x s').
    Proof.
      intros (I & I' & E & H1 & H2 & H3 & H4) R R' P.
      split; [apply addErrAt_inv; assumption|]. split; [apply addErrAt_inv; assumption|]. cbn. rewrite P, H1. auto 8.
    Qed.
    Lemma set_invert_Rs b s s' : Rs s s' -> Rs (set_invert b s) (set_invert b s').
    Proof. intros (I & I' & E & H1 & H2 & H3 & H4). split; [apply set_invert_inv; assumption|]. split; [apply set_invert_inv; assumption|]. cbn. auto 8. Qed.
    Lemma restore_Rs s0 s0' s s' : Rs s0 s0' -> Rs s s' -> grows s0 s -> Rs (restore (pt s0) s) (restore (pt s0') s').
    Proof.
      intros (I0 & I0' & E0 & K1 & _) (I & I' & E & H1 & H2 & H3 & H4) G.
      assert (G' : grows s0' s') by (destruct G as [m G]; exists m; congruence).
      split; [apply restore_inv; assumption|]. split; [apply restore_inv; assumption|].
      rewrite !restore_errs, !restore_fail. destruct (restore_invert (pt s0) s) as [X1 X2], (restore_invert (pt s0') s') as [Y1 Y2].
      split; [|repeat split; congruence]. erewrite !restore_pt; [exact E0|apply I'|apply I0'|apply I|apply I0].
    Qed.
    (** The text a match covers, when it ends by [k]. *)
    Lemma slice_Rs p p' s s' : Rs s s' -> Reach data p -> Reach data' p' -> pos p = pos p' -> off s <= k + 8 -> sliceFrom p s = sliceFrom p' s'.
    Proof.
      intros H R R' P O. pose proof (Rs_pt _ _ H) as Eo. unfold sliceFrom. fold (off s) (off s'). rewrite <- Eo, <- P.
      destruct (Reach_rest _ _ R) as [X _]. destruct (Reach_rest _ _ R') as [X' _]. rewrite X, X', <- P.
      destruct (N.le_gt_cases (offset (pos p)) (off s)) as [L|L].
      - apply firstn_skipn_eq. eapply firstn_weaken; [|exact agree]. lia.
      - replace (off s - offset (pos p)) with 0 by lia. reflexivity.
    Qed.

    (** Literals: a match moves by one byte per character. *)
    Lemma lit_loop_Rs rule rs : forall s s', forallb (fun r => r <? 128) rs = true -> Rs s s' -> off s + N.of_nat (List.length rs) <= k + 3 ->
      exists b s1 s1', lit_loop rule rs s = (b, s1) /\ lit_loop rule rs s' = (b, s1') /\ Rs s1 s1' /\ off s1 <= k + 3 /\ grows s s1.
    Proof.
      induction rs as [|r rs IH]; intros s s' L H O; cbn [lit_loop List.length] in *.
      - exists true, s, s'. split; [reflexivity|]. split; [reflexivity|]. split; [exact H|]. split; [lia|apply grows_refl].
      - cbn in L. apply andb_true_iff in L. destruct L as [Lr L]. apply N.ltb_lt in Lr.
        destruct (near (pt s) (pt s')) as [Er Ew]; [apply H|apply H|apply H|fold (off s); lia|]. rewrite <- Er.
        destruct (N.eqb_spec (rn (pt s)) r) as [X|X].
        + pose proof H as (I & _). pose proof (Reach_decoded _ _ (inv_pt _ _ I)) as D.
          destruct (rest (pt s)) as [|c t] eqn:Rt; [rewrite decode_nil in D; inversion D as [[D1 D2]]; rewrite <- D1 in X; unfold RuneError in X; lia|].
          destruct (decode_small _ _ _ _ D ltac:(lia)) as (_ & W1 & _).
          assert (Or : off (read (Some rule) s) = off s + 1) by (unfold off; rewrite read_pt_eq, read_pt_offset, W1; reflexivity).
          destruct (IH (read (Some rule) s) (read (Some rule) s') L) as (b & s1 & s1' & E1 & E2 & E3 & E4 & E5).
          * apply read_Rs; [exact H|rewrite Rt; discriminate|rewrite W1; lia].
          * rewrite Or. lia.
          * exists b, s1, s1'. repeat split; auto; try apply E3. eapply grows_trans; [apply read_grows|exact E5].
        + exists false, s, s'. split; [reflexivity|]. split; [reflexivity|]. split; [exact H|]. split; [lia|apply grows_refl].
    Qed.

    Lemma term_Rs n rule e en s s' : term e = true -> ascii_lits e = true -> Rs s s' -> off s <= k ->
      exists v ok s1 s1', PE (S n) rule e en s = PRes v ok en s1 /\ PE (S n) rule e en s' = PRes v ok en s1' /\ Rs s1 s1'.
    Proof.
      intros T L H O. pose proof H as (I & I' & P & _).
      assert (Eof : at_eof (pt s) = at_eof (pt s')) by (apply near_eof; [apply I|apply I'|exact P|fold (off s); lia]).
      assert (Wd : (w (pt s) <= 4)%nat).
      { pose proof (Reach_decoded _ _ (inv_pt _ _ I)) as D. pose proof (decode_width4 (rest (pt s))) as X. rewrite D in X. exact X. }
      assert (Step : forall want, at_eof (pt s) = false ->
        Rs (failAt true (pos (pt s)) want (read (Some rule) s)) (failAt true (pos (pt s')) want (read (Some rule) s')) /\
      sliceFrom (pt s) (failAt true (pos (pt s)) want (read (Some rule) s)) = sliceFrom (pt s') (failAt true (pos (pt s')) want (read (Some rule) s'))).
      { intros want N. assert (H1 : Rs (read (Some rule) s) (read (Some rule) s')) by (apply read_Rs; [exact H|eapply not_eof; eauto|lia]).
        assert (H2 : Rs (failAt true (pos (pt s)) want (read (Some rule) s)) (failAt true (pos (pt s')) want (read (Some rule) s'))) by (apply failAt_Rs; auto; [apply I|apply I']).
        split; [exact H2|]. apply slice_Rs; auto; [apply I|apply I'|].
        unfold off. rewrite (proj1 (failAt_core _ _ _ _)), read_pt_eq, read_pt_offset. fold (off s). lia. }
      assert (Fl : forall want, Rs (failAt false (pos (pt s)) want s) (failAt false (pos (pt s')) want s')) by (intros; apply failAt_Rs; auto; [apply I|apply I']).
      destruct e; try discriminate; rewrite ?pe_lit, ?pe_class, ?pe_any.
      - cbn in T, L. apply Nat.leb_le in T. unfold parse_lit.
        destruct (lit_loop_Rs rule runes s s' L H ltac:(lia)) as (b & s1 & s1' & E1 & E2 & E3 & E4 & E5). rewrite E1, E2.
        assert (Fa : forall c, Rs (failAt c (pos (pt s)) want s1) (failAt c (pos (pt s')) want s1')) by (intros; apply failAt_Rs; auto; [apply I|apply I']).
        destruct b.
        + eexists _, _, _, _. split; [reflexivity|]. split; [|apply (Fa true)]. do 2 f_equal. symmetry. apply slice_Rs; auto; [apply I|apply I'|].
          unfold off. rewrite (proj1 (failAt_core _ _ _ _)). fold (off s1). lia.
        + eexists _, _, _, _. split; [reflexivity|]. split; [reflexivity|]. apply restore_Rs; auto.
          eapply core_effect; [apply failAt_core|exact E5].
      - unfold parse_class. destruct (near (pt s) (pt s')) as [Er Ew]; [apply I|apply I'|exact P|fold (off s); lia|]. rewrite <- Eof, <- Er. cbv zeta.
        destruct (at_eof (pt s)) eqn:N; [eexists _, _, _, _; split; [reflexivity|]; split; [reflexivity|]; apply Fl|].
        destruct (xorb _ _); [|eexists _, _, _, _; split; [reflexivity|]; split; [reflexivity|]; apply Fl].
        destruct (Step name eq_refl) as [S1 S2]. rewrite <- S2. eexists _, _, _, _. split; [reflexivity|]. split; [reflexivity|]. exact S1.
      - unfold parse_any. rewrite <- Eof. cbv zeta.
        destruct (at_eof (pt s)) eqn:N; [eexists _, _, _, _; split; [reflexivity|]; split; [reflexivity|]; apply Fl|].
        destruct (Step (str ".") eq_refl) as [S1 S2]. rewrite <- S2. eexists _, _, _, _. split; [reflexivity|]. split; [reflexivity|]. exact S1.
    Qed.

    (** The run on the other text: the same, or the match has gone past [k]. *)
    Definition alike (r r' : pres) : Prop :=
      match r with
      | PRes v ok en s1 => fpos s1 <= k ->
          ok = true /\ k < off s1 \/ exists s1', r' = PRes v ok en s1' /\ Rs s1 s1' /\ off s1 <= k
      | _ => True
      end.
    Lemma alike_split r r' v ok en s1 : alike r r' -> r = PRes v ok en s1 -> fpos s1 <= k ->
      ok = true /\ k < off s1 \/ exists s1', r' = PRes v ok en s1' /\ Rs s1 s1' /\ off s1 <= k.
    Proof. intros H -> F. exact (H F). Qed.

    (** Past [k] every match must succeed. *)
    Lemma far n rule e en s v ok en1 s1 : tame e = true -> ascii_lits e = true -> Inv data s -> fail_invert s = false -> k < off s ->
      PE n rule e en s = PRes v ok en1 s1 -> fpos s1 <= k -> ok = true /\ k < off s1.
    Proof.
      intros T L I F O E P. pose proof (proj1 (engine_prog data n) rule e en s T L I F) as H. rewrite E in H. cbn [prog] in H.
      destruct H as (_ & _ & H3 & H4 & _). destruct ok; [split; [reflexivity|lia]|]. specialize (H3 eq_refl). lia.
    Qed.

    Lemma engine_local n :
      (forall rule e en s s', tame e = true -> ascii_lits e = true -> Rs s s' -> fail_invert s = false -> off s <= k ->
         alike (PE n rule e en s) (PE n rule e en s')) /\
      (forall rule e vals s s', tame e = true -> ascii_lits e = true -> Rs s s' -> fail_invert s = false -> off s <= k ->
         alike (SL n rule e vals s) (SL n rule e vals s')).
    Proof.
      induction n as [|n [IHe IHs]]; [split; intros; exact I|].
      assert (PrP : forall rule e en s, tame e = true -> ascii_lits e = true -> Inv data s -> fail_invert s = false -> prog s (PE n rule e en s)) by (intros; apply (engine_prog data); auto).
      assert (PrS : forall rule e en s, tame e = true -> ascii_lits e = true -> Inv data s -> fail_invert s = false -> prog s (SL n rule e en s)) by (intros; apply (engine_prog data); auto).
      assert (EffP : forall rule e en s, ascii_lits e = true -> Inv data s -> effect data s (PE n rule e en s)) by (intros; apply parse_effect; auto).
      split.
      - intros rule e en s s' T L H F O. pose proof H as (I & I' & P & _). destruct (term e) eqn:Te.
        { destruct (term_Rs n rule e en s s' Te L H O) as (v & ok & s1 & s1' & E1 & E2 & E3).
          pose proof (proj1 (engine_prog data (S n)) rule e en s T L I F) as Pr. rewrite E1 in *. rewrite E2. cbn [alike prog] in *. intros Fp.
          destruct (N.le_gt_cases (off s1) k) as [Lk|Lk]; [right; exists s1'; auto|left]. split; [|exact Lk].
          destruct ok; [reflexivity|]. exfalso. pose proof (parse_effect run_action grammar data grammar_lits (S n) rule e en s L I) as Ef.
          rewrite E1 in Ef. destruct Ef as (_ & _ & _ & Q). specialize (Q eq_refl). rewrite (off_eq _ _ Q) in Lk. lia. }
        destruct e as [a e|es|l e|es|e|e|e|e|name|rs want|v cs rs inv|]; try discriminate Te; try (cbn [tame] in T; congruence);
          rewrite ?pe_action, ?pe_choice, ?pe_label, ?pe_seq, ?pe_not, ?pe_opt, ?pe_star, ?pe_plus, ?pe_ref.
        + pose proof (IHe rule e en s s' T L H F O) as K. destruct (PE n rule e en s) as [|m rl s3|v [] en' s3]; [exact Logic.I|exact Logic.I|..].
          * destruct (run_action a (sliceFrom (pt s) s3) en') as [v'|m v'|m] eqn:Ra; [| |exact Logic.I]; cbn [alike] in *; intros Fp; cbn [addErrAt] in Fp;
              (destruct (K Fp) as [[_ K1]|(s3' & K1 & K2 & K3)]; [left; split; [reflexivity|exact K1]|right]);
              rewrite K1, <- (slice_Rs (pt s) (pt s') s3 s3' K2 (inv_pt _ _ I) (inv_pt _ _ I') P ltac:(lia)), Ra; eexists; (split; [reflexivity|]); split; auto.
            apply addErrAt_Rs; auto; [apply I|apply I'].
          * cbn [alike] in *. intros Fp. destruct (K Fp) as [[K0 _]|(s3' & K1 & K2 & K3)]; [discriminate|]. right. rewrite K1. eauto.
        + apply tame_choice in T. destruct T as [_ T]. cbn [ascii_lits] in L. clear P I I' Te. revert en s s' H F O. induction es as [|e es IHes]; intros en s s' H F O; cbn [choice_loop].
          * cbn [alike]. intros _. right. exists s'. auto.
          * cbn in T, L. apply andb_true_iff in T, L. destruct T as [Te T], L as [Le L]. pose proof H as (I & I' & P & _).
            pose proof (IHe rule e [] s s' Te Le H F O) as K. pose proof (PrP rule e [] s Te Le I F) as Pr. pose proof (EffP rule e [] s Le I) as Ef.
            destruct (PE n rule e [] s) as [|m rl s3|v [] en' s3]; [exact Logic.I|exact Logic.I|..].
            { cbn [alike] in *. intros Fp. destruct (K Fp) as [K1|(s3' & K1 & K2 & K3)]; [left; exact K1|right]. rewrite K1. eauto. }
            cbn [effect prog] in *. destruct Pr as (Q1 & Q2 & Q3 & Q4 & _), Ef as (I3 & _ & _ & Ept). specialize (Ept eq_refl).
            destruct (N.le_gt_cases (fpos s3) k) as [Lk|Lk].
            { destruct (K Lk) as [[K0 _]|(s3' & K1 & K2 & K3)]; [discriminate|]. rewrite K1. apply IHes; auto. }
            { assert (Pc : match choice_loop (PE n rule) es en s3 with PRes _ _ _ s4 => fpos s3 <= fpos s4 | _ => True end).
              { assert (Pr : forall es en s, forallb tame es = true -> forallb ascii_lits es = true -> Inv data s -> fail_invert s = false ->
                  match choice_loop (PE n rule) es en s with PRes _ _ _ s4 => fpos s <= fpos s4 | _ => True end).
                { clear - PrP EffP. induction es as [|e es IHes]; intros en s T L I F; cbn [choice_loop]; [lia|].
                  cbn in T, L. apply andb_true_iff in T, L. destruct T as [Te T], L as [Le L]. pose proof (PrP rule e [] s Te Le I F) as Pr. pose proof (EffP rule e [] s Le I) as Ef.
                  destruct (PE n rule e [] s) as [|m rl s3|v [] en' s3]; auto; cbn [effect prog] in *; [apply Pr|].
                  destruct Pr as (Q1 & Q2 & _), Ef as (I3 & _). specialize (IHes en s3 T L I3 Q1). destruct (choice_loop (PE n rule) es en s3); auto. lia. }
                apply Pr; auto. }
              destruct (choice_loop (PE n rule) es en s3) as [|m rl s4|v4 ok4 en4 s4]; [exact Logic.I|exact Logic.I|]. cbn [alike]. intros. lia. }
        + pose proof (IHe rule e [] s s' T L H F O) as K. destruct (PE n rule e [] s) as [|m rl s3|v [] en' s3]; [exact Logic.I|exact Logic.I|..]; cbn [alike] in *; intros Fp;
            (destruct (K Fp) as [[K0 K1]|(s3' & K1 & K2 & K3)]; [left; split; auto|right]; rewrite K1; eauto).
        + cbn [tame ascii_lits] in T, L.
          assert (G : forall s0 s0' es, Rs s0 s0' -> off s0 <= k -> forall vals en s s', forallb tame es = true -> forallb ascii_lits es = true -> fail_invert s = false -> grows s0 s ->
            Inv data s -> (k < off s -> match seq_loop (PE n rule) (pt s0) es vals en s with PRes _ ok _ s1 => fpos s1 <= k -> ok = true /\ k < off s1 | _ => True end) /\
      (Rs s s' -> off s <= k -> alike (seq_loop (PE n rule) (pt s0) es vals en s) (seq_loop (PE n rule) (pt s0') es vals en s'))).
          { clear - IHe PrP EffP grammar_tame grammar_lits agree. intros s0 s0' es H0 O0. induction es as [|e es IHes]; intros vals en s s' T L F Gr I; cbn [seq_loop].
            - split; [auto|]. intros H O. cbn [alike]. intros _. right. exists s'. auto.
            - cbn in T, L. apply andb_true_iff in T, L. destruct T as [Te T], L as [Le L].
              pose proof (PrP rule e en s Te Le I F) as Pr. pose proof (EffP rule e en s Le I) as Ef.
              assert (Mono : forall s1 vals en s2 v ok en4, Inv data s1 -> fail_invert s1 = false -> seq_loop (PE n rule) (pt s0) es vals en s1 = PRes v ok en4 s2 -> fpos s1 <= fpos s2).
              { clear - PrP EffP T L. induction es as [|e es IHes]; intros s1 vals en s2 v ok en4 I F E; cbn [seq_loop] in E; [inversion E; lia|].
                cbn in T, L. apply andb_true_iff in T, L. destruct T as [Te T], L as [Le L].
                pose proof (PrP rule e en s1 Te Le I F) as Pr. pose proof (EffP rule e en s1 Le I) as Ef.
                destruct (PE n rule e en s1) as [|m rl s3|v3 [] en' s3]; try discriminate; cbn [prog effect] in *; destruct Pr as (Q1 & Q2 & _), Ef as (I3 & _).
                - apply IHes in E; auto. lia.
                - inversion E; subst. rewrite restore_fpos. exact Q2. }
              split.
              + intros O. destruct (PE n rule e en s) as [|m rl s3|v [] en' s3] eqn:E; [exact Logic.I|exact Logic.I|..]; cbn [prog effect] in *.
                * destruct Pr as (Q1 & Q2 & Q3 & Q4 & Q5), Ef as (I3 & G3 & _). apply (IHes (vals ++ [v]) en' s3 s3 T L Q1 (grows_trans _ _ _ Gr G3) I3). lia.
                * destruct Pr as (Q1 & Q2 & Q3 & Q4 & Q5). specialize (Q3 eq_refl). rewrite restore_fpos. intros. lia.
              + intros H O. pose proof (IHe rule e en s s' Te Le H F O) as K.
                destruct (PE n rule e en s) as [|m rl s3|v [] en' s3] eqn:E; [exact Logic.I|exact Logic.I|..]; cbn [prog effect] in *.
                * destruct Pr as (Q1 & Q2 & Q3 & Q4 & Q5), Ef as (I3 & G3 & _).
                  assert (Gr3 : grows s0 s3) by (eapply grows_trans; eauto).
                  destruct (N.le_gt_cases (fpos s3) k) as [Lk|Lk].
                  { destruct (K Lk) as [[_ K1]|(s3' & K1 & K2 & K3)].
                    - pose proof (proj1 (IHes (vals ++ [v]) en' s3 s3 T L Q1 Gr3 I3) K1) as Z. destruct (seq_loop (PE n rule) (pt s0) es (vals ++ [v]) en' s3); auto.
                      cbn [alike]. intros Fp. left. auto.
                    - rewrite K1. apply (IHes (vals ++ [v]) en' s3 s3' T L Q1 Gr3 I3); auto. }
                  { destruct (seq_loop (PE n rule) (pt s0) es (vals ++ [v]) en' s3) as [|m rl s4|v4 ok4 en4 s4] eqn:E4; [exact Logic.I|exact Logic.I|].
                    apply Mono in E4; auto. cbn [alike]. intros. lia. }
                * destruct Ef as (I3 & G3 & _). cbn [alike] in *. rewrite restore_fpos. intros Fp. destruct (K Fp) as [[K0 _]|(s3' & K1 & K2 & K3)]; [discriminate|]. right.
                  rewrite K1. eexists. split; [reflexivity|].
                  assert (R0 : Rs (restore (pt s0) s3) (restore (pt s0') s3')) by (apply restore_Rs; auto; eapply grows_trans; eauto).
                  split; [exact R0|]. enough (X : pt (restore (pt s0) s3) = pt s0) by (rewrite (off_eq _ _ X); exact O0). eapply restore_pt; [apply I3|apply H0]. }
          apply (G s s' es H O [] en s s'); auto. apply grows_refl.
        + cbn [tame] in T. destruct n as [|n]; [exact Logic.I|].
          assert (Ei : fail_invert s' = fail_invert s) by (symmetry; apply H). rewrite Ei.
          destruct (term_Rs n rule e [] _ _ T L (set_invert_Rs (negb (fail_invert s)) _ _ H) O) as (v & ok & s1 & s1' & E1 & E2 & E3).
          pose proof (EffP rule e [] _ L (set_invert_inv _ (negb (fail_invert s)) _ I)) as Ef. rewrite E1 in *. rewrite E2. cbn [effect] in Ef. destruct Ef as (I1 & G1 & _).
          cbn [alike]. intros _. right. eexists. split; [reflexivity|].
          assert (Ei1 : fail_invert s1' = fail_invert s1) by (symmetry; apply E3). rewrite Ei1. split.
          * apply restore_Rs; auto. apply set_invert_Rs. exact E3.
          * enough (X : pt (restore (pt s) (set_invert (negb (fail_invert s1)) s1)) = pt s) by (rewrite (off_eq _ _ X); exact O). eapply restore_pt; [apply I1|apply I].
        + pose proof (IHe rule e [] s s' T L H F O) as K. destruct (PE n rule e [] s) as [|m rl s3|v ok en' s3]; [exact Logic.I|exact Logic.I|]. cbn [alike] in *. intros Fp.
          destruct (K Fp) as [[K0 K1]|(s3' & K1 & K2 & K3)]; [left; auto|right]. rewrite K1. eauto.
        + pose proof (IHs rule e [] s s' T L H F O) as K. destruct (SL n rule e [] s) as [|m rl s3|v ok en' s3]; [exact Logic.I|exact Logic.I|]. cbn [alike] in *. intros Fp.
          destruct (K Fp) as [[K0 K1]|(s3' & K1 & K2 & K3)]; [left; auto|right]. rewrite K1. eauto.
        + pose proof (IHs rule e [] s s' T L H F O) as K. destruct (star_effect run_action grammar data grammar_lits n rule e [] s L I) as [_ X].
          destruct (SL n rule e [] s) as [|m rl s3|v ok en' s3] eqn:E; [exact Logic.I|exact Logic.I|].
          destruct (X v ok en' s3 eq_refl) as [-> [l [-> Hl]]]. cbn [app] in *. destruct l as [|x l].
          * cbn [alike] in *. intros Fp. specialize (Hl eq_refl). destruct (K Fp) as [[_ K1]|(s3' & K1 & K2 & K3)]; [rewrite (off_eq _ _ Hl) in K1; lia|right]. rewrite K1. eauto.
          * cbn [alike] in *. intros Fp. destruct (K Fp) as [K1|(s3' & K1 & K2 & K3)]; [left; exact K1|right]. rewrite K1. eauto.
        + cbn [tame] in T. destruct (grammar name) as [b|] eqn:Gr; [|discriminate].
          pose proof (IHe name b [] s s' (grammar_tame name b Gr) (grammar_lits name b Gr) H F O) as K. destruct (PE n name b [] s) as [|m rl s3|v ok en' s3]; [exact Logic.I|exact Logic.I|].
          cbn [alike] in *. intros Fp. destruct (K Fp) as [K1|(s3' & K1 & K2 & K3)]; [left; exact K1|right]. rewrite K1. eauto.
      - intros rule e vals s s' T L H F O. rewrite !sl_S. pose proof H as (I & I' & P & _).
        pose proof (IHe rule e [] s s' T L H F O) as K. pose proof (PrP rule e [] s T L I F) as Pr. pose proof (EffP rule e [] s L I) as Ef.
        destruct (PE n rule e [] s) as [|m rl s3|v [] en' s3]; [exact Logic.I|exact Logic.I|..]; cbn [prog effect] in *.
        + destruct Pr as (Q1 & Q2 & Q3 & Q4 & Q5), Ef as (I3 & _).
          pose proof (PrS rule e (vals ++ [v]) s3 T L I3 Q1) as Ps.
          destruct (star_effect run_action grammar data grammar_lits n rule e (vals ++ [v]) s3 L I3) as [_ X].
          destruct (N.le_gt_cases (fpos s3) k) as [Lk|Lk].
          * destruct (K Lk) as [[_ K1]|(s3' & K1 & K2 & K3)].
            { destruct (SL n rule e (vals ++ [v]) s3) as [|m rl s4|v4 ok4 en4 s4]; [exact Logic.I|exact Logic.I|]. cbn [alike prog] in *. intros Fp. left.
              destruct (X v4 ok4 en4 s4 eq_refl) as [-> _]. split; [reflexivity|lia]. }
            { rewrite K1. apply IHs; auto. }
          * destruct (SL n rule e (vals ++ [v]) s3) as [|m rl s4|v4 ok4 en4 s4]; [exact Logic.I|exact Logic.I|]. cbn [alike prog] in *. intros. lia.
        + cbn [alike] in *. intros Fp. destruct (K Fp) as [[K0 _]|(s3' & K1 & K2 & K3)]; [discriminate|]. right. rewrite K1. eauto.
    Qed.

    (** A match that failed, with no failure after [k], fails on the other text in the same way. *)
    Lemma local_fail n rule e s s' v en s1 : tame e = true -> ascii_lits e = true -> Rs s s' -> fail_invert s = false -> off s <= k ->
      PE n rule e [] s = PRes v false en s1 -> fpos s1 <= k -> exists s1', PE n rule e [] s' = PRes v false en s1' /\ Rs s1 s1'.
    Proof.
      intros T L H F O E Fp. pose proof (proj1 (engine_local n) rule e [] s s' T L H F O) as K. rewrite E in K. cbn [alike] in K.
      destruct (K Fp) as [[X _]|(s1' & K1 & K2 & _)]; [discriminate|eauto].
    Qed.
  End Two.
End Local.
