(** What the parser records as expected, and the message made of it (for C65). *)
From Verif Require Import Text GoAst Ast Utf8 GoExpr Peg SpecPeg PegPoints PegSem PegAgree PegLocal SpecPrint SpecExpect.
From Coq Require Import NArith Arith Bool Lia.
Open Scope nat_scope.
Open Scope list_scope.

Section Track.
  Context {A : Type}.
  Variable run_action : A -> text -> env -> ares.
  Variable grammar : text -> option (pexpr A).
  Variable data : text.
  Notation PE := (parse_expr run_action grammar).
  Notation SL := (star_loop run_action grammar).
  Hypothesis grammar_lits : forall n b, grammar n = Some b -> ascii_lits b = true.
  Hypothesis grammar_tame : forall n b, grammar n = Some b -> tame grammar b = true.
  Notation reads := (@SpecExpect.reads A grammar).
  Notation look := (SpecExpect.look A).

  Definition hit (l : look) : bool := match matches (tried l) (SpecExpect.left_ l) with Some _ => true | None => false end.
  Definition place_of (l : look) : N := (N.of_nat (List.length data) - N.of_nat (List.length (SpecExpect.left_ l)))%N.
  Definition named (neg : bool) (l : look) : text := if neg then str "!" ++ display (tried l) else display (tried l).
  Definition note (inv : bool) (st : N * list text) (l : look) : N * list text :=
    let neg := xorb inv (negated l) in
    if Bool.eqb (hit l) neg then
      if (place_of l <? fst st)%N then st
      else if (fst st <? place_of l)%N then (place_of l, [named neg l]) else (fst st, snd st ++ [named neg l])
    else st.
  Definition fails (s : pstate) : N * list text := (fpos s, fail_expected s).

  Lemma note_flip inv st l : note inv st (flip l) = note (negb inv) st l.
  Proof. unfold note, flip, hit, place_of, named. cbn [negated tried SpecExpect.left_]. destruct inv, (negated l); reflexivity. Qed.
  Lemma fold_flip inv tr : forall st, fold_left (note inv) (map flip tr) st = fold_left (note (negb inv)) tr st.
  Proof. induction tr as [|l tr IH]; intros st; cbn; [reflexivity|]. rewrite note_flip. apply IH. Qed.

  Lemma place_here s : Inv data s -> forall e b, place_of (mkLook (rest (pt s)) e b) = offset (pos (pt s)).
  Proof.
    intros I e b. destruct (Reach_rest _ _ (inv_pt _ _ I)) as [E L]. unfold place_of. cbn [SpecExpect.left_]. rewrite E, skipn_length. lia.
  Qed.
  Lemma fail_note s s0 e b : Inv data s -> fail_pos s0 = fail_pos s -> fail_expected s0 = fail_expected s -> fail_invert s0 = fail_invert s ->
    b = hit (mkLook (rest (pt s)) e false) ->
    fails (failAt b (pos (pt s)) (display e) s0) = note (fail_invert s) (fails s) (mkLook (rest (pt s)) e false) /\
    fail_invert (failAt b (pos (pt s)) (display e) s0) = fail_invert s.
  Proof.
    intros I P E V ->. unfold note, failAt, fails, fpos. rewrite (place_here s I), V, P. cbn [negated fst snd]. rewrite xorb_false_r.
    destruct (Bool.eqb _ _); [|rewrite P, E; auto]. destruct (N.ltb_spec (offset (pos (pt s))) (offset (fail_pos s))); [rewrite P, E; auto|].
    unfold named. destruct (_ <? _)%N; cbn [fail_pos fail_expected fail_invert tried]; rewrite ?V; split; auto; rewrite E; destruct (fail_invert s); reflexivity.
  Qed.

  Lemma restore_fails p s : fails (restore p s) = fails s /\ fail_invert (restore p s) = fail_invert s.
  Proof. unfold fails, fpos. rewrite restore_fail. destruct (restore_invert p s) as [-> ->]. auto. Qed.
  Lemma lit_loop_expected rule rs : forall s b s1, lit_loop rule rs s = (b, s1) -> fail_expected s1 = fail_expected s.
  Proof.
    induction rs as [|r rs IH]; intros s b s1 E; cbn [lit_loop] in E; [inversion E; subst; auto|].
    destruct (rn (pt s) =? r)%N; [|inversion E; subst; auto]. apply IH in E. destruct (read_fpos (Some rule) s) as (_ & _ & X). congruence.
  Qed.

  Definition tracked (e : pexpr A) (s : pstate) (o : option text) (s' : pstate) : Prop :=
    exists tr, reads e (rest (pt s)) o tr /\ fails s' = fold_left (note (fail_invert s)) tr (fails s) /\ fail_invert s' = fail_invert s.

  Lemma track_lit rule rs want s x ok s' : forallb (fun r => r <? 128)%N rs = true -> Inv data s ->
    parse_lit rule rs want s = (x, ok, s') -> tracked (PLit rs want) s (if ok then Some (rest (pt s')) else None) s'.
  Proof.
    intros L I E. unfold parse_lit in E. destruct (lit_loop rule rs s) as [b s1] eqn:E1.
    pose proof (lit_loop_match data rule rs s b s1 L I E1) as M.
    destruct (lit_loop_fpos rule rs s b s1 E1) as (P & V & _). pose proof (lit_loop_expected rule rs s b s1 E1) as X.
    destruct (fail_note s s1 (PLit rs want) b I P X V) as [F G].
    { unfold hit. cbn [tried SpecExpect.left_ matches]. rewrite M. destruct b; reflexivity. }
    destruct b; injection E as <- <- <-; exists [mkLook (rest (pt s)) (PLit rs want) false]; cbn [fold_left].
    - destruct (failAt_core true (pos (pt s)) want s1) as [-> _]. split; [rewrite <- M; constructor; exact Logic.I|]. split; assumption.
    - destruct (restore_fails (pt s) (failAt false (pos (pt s)) want s1)) as [-> ->].
      split; [rewrite <- M; constructor; exact Logic.I|]. split; assumption.
  Qed.
  Lemma track_any rule s x ok s' : Inv data s -> parse_any rule s = (x, ok, s') -> tracked PAny s (if ok then Some (rest (pt s')) else None) s'.
  Proof.
    intros I E. unfold parse_any in E. exists [mkLook (rest (pt s)) PAny false]. cbn [fold_left]. destruct (at_eof (pt s)) eqn:F; injection E as <- <- <-.
    - apply (Reach_eof data) in F; [|apply I]. destruct (fail_note s s PAny false I) as [X Y]; auto; [unfold hit; cbn; rewrite F; reflexivity|].
      split; [|auto]. assert (M : None = @matches A PAny (rest (pt s))) by (rewrite F; reflexivity). rewrite M. constructor. exact Logic.I.
    - assert (N : rest (pt s) <> []) by (eapply not_eof; eauto). destruct (read_fpos (Some rule) s) as (P1 & P2 & P3).
      assert (M : @matches A PAny (rest (pt s)) = Some (after_rune (rest (pt s)))) by (cbn; destruct (rest (pt s)); [contradiction|reflexivity]).
      destruct (fail_note s (read (Some rule) s) PAny true I) as [X Y]; auto; [unfold hit; cbn [tried SpecExpect.left_]; rewrite M; reflexivity|].
      split; [|auto]. destruct (step_sem data ["."%char] rule s I N) as [_ Z]. change (str ".") with ["."%char]. rewrite Z, <- M. constructor. exact Logic.I.
  Qed.
  Lemma track_class rule v cs rs inv s x ok s' : Inv data s -> parse_class rule v cs rs inv s = (x, ok, s') ->
    tracked (PClass v cs rs inv) s (if ok then Some (rest (pt s')) else None) s'.
  Proof.
    intros I E. unfold parse_class in E. exists [mkLook (rest (pt s)) (PClass v cs rs inv) false]. cbn [fold_left].
    assert (Fl : matches (PClass v cs rs inv : pexpr A) (rest (pt s)) = None -> 
      reads (PClass v cs rs inv) (rest (pt s)) None [mkLook (rest (pt s)) (PClass v cs rs inv) false] /\
      fails (failAt false (pos (pt s)) v s) = note (fail_invert s) (fails s) (mkLook (rest (pt s)) (PClass v cs rs inv) false) /\
      fail_invert (failAt false (pos (pt s)) v s) = fail_invert s).
    { intros M. destruct (fail_note s s (PClass v cs rs inv) false I) as [X Y]; auto; [unfold hit; cbn [tried SpecExpect.left_]; rewrite M; reflexivity|].
      split; [rewrite <- M; constructor; exact Logic.I|auto]. }
    destruct (at_eof (pt s)) eqn:F.
    - injection E as <- <- <-. apply (Reach_eof data) in F; [|apply I]. apply Fl. cbn. rewrite F. reflexivity.
    - assert (N : rest (pt s) <> []) by (eapply not_eof; eauto).
      assert (C : in_class cs rs inv (first_rune (rest (pt s))) =
        xorb (existsb (N.eqb (rn (pt s))) cs || existsb (fun '(lo, hi) => (lo <=? rn (pt s)) && (rn (pt s) <=? hi))%N rs) inv).
      { unfold in_class, first_rune. rewrite (Reach_decoded _ _ (inv_pt _ _ I)). reflexivity. }
      destruct (xorb _ _); injection E as <- <- <-.
      + assert (M : matches (PClass v cs rs inv : pexpr A) (rest (pt s)) = Some (after_rune (rest (pt s)))).
        { cbn. rewrite C. destruct (rest (pt s)); [contradiction|reflexivity]. }
        destruct (read_fpos (Some rule) s) as (P1 & P2 & P3).
        destruct (fail_note s (read (Some rule) s) (PClass v cs rs inv) true I) as [X Y]; auto; [unfold hit; cbn [tried SpecExpect.left_]; rewrite M; reflexivity|].
        split; [|auto]. destruct (step_sem data v rule s I N) as [_ Z]. rewrite Z, <- M. constructor. exact Logic.I.
      + apply Fl. cbn. rewrite C. destruct (rest (pt s)); reflexivity.
  Qed.

  Lemma tracked_app e s o s1 : tracked e s o s1 -> exists tr, reads e (rest (pt s)) o tr /\ fails s1 = fold_left (note (fail_invert s)) tr (fails s) /\ fail_invert s1 = fail_invert s.
  Proof. auto. Qed.

  Lemma engine_track n :
    (forall rule e en s v ok en' s', ascii_lits e = true -> tame grammar e = true -> Inv data s -> PE n rule e en s = PRes v ok en' s' ->
       tracked e s (if ok then Some (rest (pt s')) else None) s') /\
    (forall rule e vals s vs ok en' s', ascii_lits e = true -> tame grammar e = true -> Inv data s -> SL n rule e vals s = PRes (VSlice vs) ok en' s' ->
       vs = vals /\ tracked e s None s' /\ rest (pt s') = rest (pt s) \/
       List.length vals < List.length vs /\ tracked (PPlus e) s (Some (rest (pt s'))) s').
  Proof.
    induction n as [|n [IHe IHs]]; [split; discriminate|]. split.
    - intros rule e en s v ok en' s' L T I E.
      destruct e as [a e|es|l e|es|e|e|e|e|name|rs want|cv cs rs inv|]; cbn [ascii_lits] in L; revert E; step_engine; intros E.
      + destruct (PE n rule e en s) as [|m rl s3|v3 [] en3 s3] eqn:E3; try discriminate.
        * destruct (IHe _ _ _ _ _ _ _ _ L T I E3) as (tr & R & F & V). exists tr.
          destruct (run_action a _ en3); inversion E; subst; (split; [constructor; exact R|]; split; [exact F|exact V]).
        * inversion E; subst. destruct (IHe _ _ _ _ _ _ _ _ L T I E3) as (tr & R & F & V). exists tr. split; [constructor; exact R|auto].
      + apply tame_choice in T. destruct T as [_ T]. revert s I E. induction es as [|e es IHes]; intros s I E; cbn [choice_loop] in E.
        * inversion E; subst. exists []. split; [constructor|auto].
        * cbn in L, T. apply andb_true_iff in L, T. destruct L as [Le L], T as [Te T].
          destruct (PE n rule e [] s) as [|m rl s3|v3 [] en3 s3] eqn:E3; try discriminate; destruct (IHe _ _ _ _ _ _ _ _ Le Te I E3) as (tr & R & F & V).
          { inversion E; subst. exists tr. split; [apply rd_choice_first; exact R|auto]. }
          { destruct (grows_clean run_action grammar data grammar_lits _ _ _ _ _ _ _ _ _ Le I E3) as (I3 & _ & P3).
            destruct (IHes L T s3 I3 E) as (tr' & R' & F' & V'). rewrite (P3 eq_refl) in R'.
            exists (tr ++ tr'). split; [apply rd_choice_next; assumption|]. rewrite fold_left_app, <- F, F', <- V. split; [reflexivity|congruence]. }
      + destruct (PE n rule e [] s) as [|m rl s3|v3 [] en3 s3] eqn:E3; try discriminate; inversion E; subst;
          destruct (IHe _ _ _ _ _ _ _ _ L T I E3) as (tr & R & F & V); exists tr; (split; [constructor; exact R|auto]).
      + change (forallb (tame grammar) es = true) in T. revert E. generalize (pt s) at 1 as sp. generalize (@nil val) as vals. intros vals sp E.
        revert vals en s I E. induction es as [|e es IHes]; intros vals en s I E; cbn [seq_loop] in E.
        * inversion E; subst. exists []. split; [constructor|auto].
        * cbn in L, T. apply andb_true_iff in L, T. destruct L as [Le L], T as [Te T].
          destruct (PE n rule e en s) as [|m rl s3|v3 [] en3 s3] eqn:E3; try discriminate; destruct (IHe _ _ _ _ _ _ _ _ Le Te I E3) as (tr & R & F & V);
            destruct (grows_clean run_action grammar data grammar_lits _ _ _ _ _ _ _ _ _ Le I E3) as (I3 & _ & P3).
          { destruct (IHes L T _ _ s3 I3 E) as (tr' & R' & F' & V').
            exists (tr ++ tr'). split; [eapply rd_seq_next; eassumption|]. rewrite fold_left_app, <- F, F', <- V. split; [reflexivity|congruence]. }
          { inversion E; subst. destruct (restore_fails sp s3) as [F1 V1]. exists tr. split; [apply rd_seq_fail; exact R|]. split; congruence. }
      + destruct (PE n rule e [] (set_invert (negb (fail_invert s)) s)) as [|m rl s3|v3 ok3 en3 s3] eqn:E3; try discriminate.
        pose proof (set_invert_inv data (negb (fail_invert s)) s I) as I'.
        assert (T' : tame grammar e = true) by (cbn in T; destruct e; try discriminate; exact T).
        destruct (IHe _ _ _ _ _ _ _ _ L T' I' E3) as (tr & R & F & V). cbn [fail_invert set_invert pt] in *.
        destruct (grows_clean run_action grammar data grammar_lits _ _ _ _ _ _ _ _ _ L I' E3) as (I3 & _ & P3).
        injection E as <- <- <- <-. destruct (restore_fails (pt s) (set_invert (negb (fail_invert s3)) s3)) as [F1 V1].
        exists (map flip tr). rewrite F1, V1. cbn [fail_invert set_invert]. rewrite fold_flip.
        change (fails (set_invert (negb (fail_invert s3)) s3)) with (fails s3). change (fails (set_invert (negb (fail_invert s)) s)) with (fails s) in F.
        rewrite V, negb_involutive. split; [|auto]. rewrite (restore_pt data); [|apply I3|apply I].
        destruct ok3; cbn [negb]; [eapply rd_not_fail; exact R|apply rd_not; exact R].
      + destruct (PE n rule e [] s) as [|m rl s3|v3 ok3 en3 s3] eqn:E3; try discriminate; inversion E; subst.
        destruct (IHe _ _ _ _ _ _ _ _ L T I E3) as (tr & R & F & V). exists tr. split; [|auto]. destruct ok3; [apply rd_opt; exact R|].
        destruct (grows_clean run_action grammar data grammar_lits _ _ _ _ _ _ _ _ _ L I E3) as (_ & _ & P3). rewrite (P3 eq_refl). apply rd_opt_none; exact R.
      + destruct (star_effect run_action grammar data grammar_lits n rule e [] s L I) as [_ X].
        destruct (SL n rule e [] s) as [|m rl s3|v3 ok3 en3 s3] eqn:E3; try discriminate.
        destruct (X v3 ok3 en3 s3 eq_refl) as [-> [l [-> _]]]. inversion E; subst.
        destruct (IHs _ _ _ _ _ _ _ _ L T I E3) as [(_ & (tr & R & F & V) & Q)|(_ & (tr & R & F & V))]; exists tr; (split; [|auto]).
        * rewrite Q. apply rd_star_end. exact R.
        * inversion R; subst; try contradiction. eapply rd_star_more; eassumption.
      + destruct (star_effect run_action grammar data grammar_lits n rule e [] s L I) as [_ X].
        destruct (SL n rule e [] s) as [|m rl s3|v3 ok3 en3 s3] eqn:E3; try discriminate.
        destruct (X v3 ok3 en3 s3 eq_refl) as [-> [l [-> _]]]. cbn [app] in *.
        destruct (IHs _ _ _ _ _ _ _ _ L T I E3) as [(Z & (tr & R & F & V) & Q)|(Z & (tr & R & F & V))].
        * subst l. inversion E; subst. exists tr. split; [apply rd_plus_fail; exact R|auto].
        * destruct l as [|x l]; [cbn in Z; lia|]. inversion E; subst. exists tr. auto.
      + cbn in T. destruct (grammar name) as [b|] eqn:Gr; [|discriminate].
        destruct (PE n name b [] s) as [|m rl s3|v3 ok3 en3 s3] eqn:E3; try discriminate; inversion E; subst.
        destruct (IHe _ _ _ _ _ _ _ _ (grammar_lits _ _ Gr) (grammar_tame _ _ Gr) I E3) as (tr & R & F & V). exists tr. split; [|auto].
        eapply rd_ref; eassumption.
      + destruct (parse_lit rule rs want s) as [[x ok1] s1] eqn:E1. inversion E; subst. eapply track_lit; eauto.
      + destruct (parse_class rule cv cs rs inv s) as [[x ok1] s1] eqn:E1. inversion E; subst. eapply track_class; eauto.
      + destruct (parse_any rule s) as [[x ok1] s1] eqn:E1. inversion E; subst. eapply track_any; eauto.
    - intros rule e vals s vs ok en' s' L T I E. rewrite sl_S in E.
      destruct (PE n rule e [] s) as [|m rl s3|v3 [] en3 s3] eqn:E3; try discriminate; destruct (IHe _ _ _ _ _ _ _ _ L T I E3) as (tr & R & F & V);
        destruct (grows_clean run_action grammar data grammar_lits _ _ _ _ _ _ _ _ _ L I E3) as (I3 & _ & P3).
      + right. destruct (IHs _ _ _ _ _ _ _ _ L T I3 E) as [(-> & (tr' & R' & F' & V') & Q)|(Z & (tr' & R' & F' & V'))].
        * split; [rewrite app_length; cbn; lia|]. exists (tr ++ tr'). split; [eapply rd_plus; [exact R|]; rewrite Q; apply rd_star_end; exact R'|].
          rewrite fold_left_app, <- F, F', <- V. split; [reflexivity|congruence].
        * split; [rewrite app_length in Z; cbn in Z; lia|]. exists (tr ++ tr'). split.
          { eapply rd_plus; [exact R|]. inversion R'; subst; try contradiction. eapply rd_star_more; eassumption. }
          rewrite fold_left_app, <- F, F', <- V. split; [reflexivity|congruence].
      + inversion E; subst. left. split; [reflexivity|]. split; [exists tr; auto|]. rewrite (P3 eq_refl). reflexivity.
  Qed.
End Track.

(** ** The trace alone *)
Section Trace.
  Context {A : Type}.
  Variable grammar : text -> option (pexpr A).
  Notation reads := (@SpecExpect.reads A grammar).
  Notation look := (SpecExpect.look A).

  Definition suffix (r t : text) : Prop := exists k, t = k ++ r.
  Lemma suffix_refl t : suffix t t. Proof. exists []. reflexivity. Qed.
  Lemma suffix_trans a b c : suffix a b -> suffix b c -> suffix a c.
  Proof. intros [k ->] [k' ->]. exists (k' ++ k). apply app_assoc. Qed.
  Lemma matches_suffix (e : pexpr A) t r : matches e t = Some r -> suffix r t.
  Proof.
    intros E. destruct e; try discriminate; cbn in E.
    - apply lit_match_suffix in E. exact E.
    - destruct t as [|c t]; [discriminate|]. destruct (in_class _ _ _ _); [|discriminate]. injection E as <-. eexists. symmetry. apply after_rune_suffix.
    - destruct t as [|c t]; [discriminate|]. injection E as <-. eexists. symmetry. apply after_rune_suffix.
  Qed.
  Lemma reads_suffix e t o tr : reads e t o tr -> (forall r, o = Some r -> suffix r t) /\ Forall (fun l => suffix (SpecExpect.left_ l) t) tr.
  Proof.
    assert (M : forall tr r t, suffix r t -> Forall (fun l : look => suffix (SpecExpect.left_ l) r) tr -> Forall (fun l : look => suffix (SpecExpect.left_ l) t) tr).
    { intros tr0 r t0 H F. eapply Forall_impl; [|exact F]. intros l K. exact (suffix_trans _ _ _ K H). }
    assert (Fl : forall tr t, Forall (fun l : look => suffix (SpecExpect.left_ l) t) tr -> Forall (fun l : look => suffix (SpecExpect.left_ l) t) (map flip tr)).
    { intros tr0 t0 F. rewrite Forall_map. exact F. }
    induction 1; repeat match goal with X : _ /\ _ |- _ => destruct X end; try solve [split; [intros; try discriminate; eauto|rewrite ?Forall_app; eauto]].
    - split; [intros r; apply matches_suffix|]. constructor; [apply suffix_refl|constructor].
    - split; [intros r X; injection X as <-; apply suffix_refl|constructor].
    - split; [intros r' X; eapply suffix_trans; eauto|]. rewrite Forall_app. split; [assumption|]. eapply M; [|eassumption]; eauto.
    - split; [intros r' X; injection X as <-; apply suffix_refl|auto].
    - split; [intros r' X; injection X as <-; apply suffix_refl|auto].
    - split; [intros r' X; injection X as <-; apply suffix_refl|auto].
    - split; [intros r' X; eapply suffix_trans; eauto|]. rewrite Forall_app. split; [assumption|]. eapply M; [|eassumption]; eauto.
    - split; [intros r' X; eapply suffix_trans; eauto|]. rewrite Forall_app. split; [assumption|]. eapply M; [|eassumption]; eauto.
  Qed.

  Lemma reads_fun e t o tr : reads e t o tr -> forall o' tr', reads e t o' tr' -> o' = o /\ tr' = tr.
  Proof.
    induction 1; intros o1 tr1 H1; inversion H1; subst; try contradiction;
      repeat match goal with
      | IH : forall o tr, reads ?e ?t o tr -> _, R : reads ?e ?t ?o ?tr |- _ =>
          let X := fresh in let Y := fresh in destruct (IH _ _ R) as [X Y]; clear R; subst; try discriminate; try (injection X as ->)
      end; auto.
    match goal with G : grammar ?n = Some ?x, G' : grammar ?n = Some ?y |- _ => assert (x = y) by congruence; subst end. eauto.
  Qed.

  (** A failure has a reason. *)
  Lemma reads_reason e t tr : reads e t None tr -> tame grammar e = true -> (forall n b, grammar n = Some b -> tame grammar b = true) ->
    exists l, In l tr /\ disappointed l.
  Proof.
    intros R T GT. remember None as o eqn:O. revert O T. induction R; intros O T; subst; try discriminate.
    - eexists. split; [left; reflexivity|]. exact O.
    - apply IHR; [reflexivity|exact T].
    - apply IHR; [reflexivity|exact T].
    - apply IHR; [reflexivity|]. eapply GT; eassumption.
    - apply tame_choice in T. destruct T as [_ T]. cbn in T. apply andb_true_iff in T. destruct T as [T _].
      destruct (IHR1 eq_refl T) as (l & I & D). exists l. split; [apply in_or_app; left; exact I|exact D].
    - cbn in T. apply andb_true_iff in T. destruct T as [T _]. apply IHR; [reflexivity|exact T].
    - cbn in T. apply andb_true_iff in T. destruct T as [_ T]. destruct (IHR2 eq_refl T) as (l & I & D). exists l. split; [apply in_or_app; right; exact I|exact D].
    - cbn in T. inversion R; subst; try discriminate. exists (flip (mkLook t e false)). split; [left; reflexivity|]. unfold disappointed, flip. cbn. congruence.
    - destruct (IHR2 eq_refl T) as (l & I & D). exists l. split; [apply in_or_app; right; exact I|exact D].
    - apply IHR; [reflexivity|exact T].
    - destruct (IHR2 eq_refl T) as (l & I & D). exists l. split; [apply in_or_app; right; exact I|exact D].
  Qed.

  (** What is tried occurs in the grammar. *)
  Fixpoint terms (e : pexpr A) : list (pexpr A) :=
    match e with
    | PAction _ e | PLabel _ e | PNot e | POpt e | PStar e | PPlus e => terms e
    | PChoice es | PSeq es => (fix go es := match es with [] => [] | e :: es => terms e ++ go es end) es
    | PRef _ => []
    | e => [e]
    end.
  Lemma terms_list es : (fix go es := match es with [] => [] | e :: es => terms e ++ go es end) es = flat_map terms es.
  Proof. induction es as [|e es IH]; cbn; [reflexivity|]. rewrite IH. reflexivity. Qed.
  Lemma reads_terms (P : pexpr A -> Prop) e t o tr : (forall n b, grammar n = Some b -> Forall P (terms b)) -> reads e t o tr -> Forall P (terms e) ->
    Forall (fun l => P (tried l)) tr.
  Proof.
    intros G R. induction R; cbn [terms]; rewrite ?terms_list; cbn [flat_map]; rewrite ?Forall_app; intros T; rewrite ?Forall_app, ?Forall_map.
    - constructor; [|constructor]. destruct e; try contradiction; apply (Forall_inv T).
    - auto.
    - auto.
    - apply IHR. eapply G. eassumption.
    - constructor.
    - apply IHR, T.
    - split; [apply IHR1, T|]. apply IHR2. cbn [terms]. rewrite terms_list. apply T.
    - constructor.
    - apply IHR, T.
    - split; [apply IHR1, T|]. apply IHR2. cbn [terms]. rewrite terms_list. apply T.
    - apply IHR, T.
    - apply IHR, T.
    - auto.
    - auto.
    - auto.
    - split; [apply IHR1, T|apply IHR2, T].
    - auto.
    - split; [apply IHR1, T|apply IHR2, T].
  Qed.

  (** What has been recorded at the end. *)
  Variable data : text.
  Lemma hit_spec (l : look) : disappointed l <-> Bool.eqb (hit l) (xorb false (negated l)) = true.
  Proof.
    unfold disappointed, hit. rewrite xorb_false_l. destruct (negated l), (matches (tried l) (SpecExpect.left_ l)); cbn; split; congruence.
  Qed.
  Lemma named_shown (l : look) : named (xorb false (negated l)) l = shown l.
  Proof. unfold named, shown. destruct (negated l); reflexivity. Qed.
  Lemma fold_recorded (tr : list look) : let (K, ws) := fold_left (note data false) tr (0%N, []) in
    (forall l : look, In l tr -> disappointed l -> (place_of data l <= K)%N) /\
    (forall w, In w ws <-> exists l, In l tr /\ disappointed l /\ place_of data l = K /\ w = shown l) /\
    (K = 0%N /\ (forall l, In l tr -> ~ disappointed l) \/ exists l, In l tr /\ disappointed l /\ place_of data l = K).
  Proof.
    induction tr as [|l tr IH] using rev_ind; cbn [fold_left].
    - split; [intros l []|]. split; [|left; split; [reflexivity|intros l []]]. intros w. split; [intros []|intros (l & [] & _)].
    - rewrite fold_left_app. cbn [fold_left]. destruct (fold_left (note data false) tr (0%N, [])) as [K ws]. destruct IH as (I1 & I2 & I3).
      assert (Keep : (disappointed l -> (place_of data l < K)%N) ->
        (forall l0, In l0 (tr ++ [l]) -> disappointed l0 -> (place_of data l0 <= K)%N) /\
        (forall w, In w ws <-> exists l0, In l0 (tr ++ [l]) /\ disappointed l0 /\ place_of data l0 = K /\ w = shown l0) /\
        (K = 0%N /\ (forall l0, In l0 (tr ++ [l]) -> ~ disappointed l0) \/ exists l0, In l0 (tr ++ [l]) /\ disappointed l0 /\ place_of data l0 = K)).
      { intros N. split; [|split].
        - intros l0 H D. apply in_app_or in H. destruct H as [H|[->|[]]]; [auto|]. apply N in D. lia.
        - intros w. rewrite I2. split; intros (l0 & H & D & E & W).
          + exists l0. split; [apply in_or_app; auto|auto].
          + apply in_app_or in H. destruct H as [H|[->|[]]]; [exists l0; auto|]. apply N in D. lia.
        - destruct I3 as [[-> B]|(l0 & H & E)].
          + left. split; [reflexivity|]. intros l0 H D. apply in_app_or in H. destruct H as [H|[->|[]]]; [exact (B l0 H D)|]. apply N in D. lia.
          + right. exists l0. split; [apply in_or_app; auto|exact E]. }
      unfold note at 1. cbn [fst snd]. pose proof (hit_spec l) as S. destruct (Bool.eqb _ _); [|apply Keep; intros D; apply S in D; discriminate].
      destruct (N.ltb_spec (place_of data l) K) as [L|L]; [apply Keep; auto|]. rewrite named_shown.
      destruct (N.ltb_spec K (place_of data l)) as [L'|L'].
      + split; [|split].
        * intros l0 H D. apply in_app_or in H. destruct H as [H|[->|[]]]; [|lia]. specialize (I1 l0 H D). lia.
        * intros w. split.
          { intros [<-|[]]. exists l. split; [apply in_or_app; right; left; reflexivity|]. split; [apply S; reflexivity|auto]. }
          { intros (l0 & H & D & E & ->). apply in_app_or in H. destruct H as [H|[->|[]]]; [|left; reflexivity]. specialize (I1 l0 H D). lia. }
        * right. exists l. split; [apply in_or_app; right; left; reflexivity|]. split; [apply S; reflexivity|reflexivity].
      + assert (E : place_of data l = K) by lia. split; [|split].
        * intros l0 H D. apply in_app_or in H. destruct H as [H|[->|[]]]; [auto|lia].
        * intros w. rewrite in_app_iff, I2. split.
          { intros [(l0 & H & X)|[<-|[]]]; [exists l0; split; [apply in_or_app; auto|exact X]|].
            exists l. split; [apply in_or_app; right; left; reflexivity|]. split; [apply S; reflexivity|auto]. }
          { intros (l0 & H & D & X & ->). apply in_app_or in H. destruct H as [H|[->|[]]]; [left; exists l0; auto|right; left; reflexivity]. }
        * right. exists l. split; [apply in_or_app; right; left; reflexivity|]. split; [apply S; reflexivity|exact E].
  Qed.
  Lemma fold_farthest e o tr : reads e data o tr -> let (K, ws) := fold_left (note data false) tr (0%N, []) in
    farthest data tr (N.to_nat K) (fun w => In w ws).
  Proof.
    intros R. pose proof (fold_recorded tr) as F. destruct (fold_left _ _ _) as [K ws]. destruct F as (F1 & F2 & F3).
    apply reads_suffix in R. destruct R as [_ Sx]. rewrite Forall_forall in Sx.
    assert (Len : forall l, In l tr -> List.length (SpecExpect.left_ l) <= List.length data).
    { intros l H. destruct (Sx l H) as [k ->]. rewrite app_length. lia. }
    split.
    - intros l H D. specialize (F1 l H D). unfold place_of in F1. specialize (Len l H). lia.
    - intros w. rewrite F2. split; intros (l & H & D & E & W); exists l; (split; [exact H|]; split; [exact D|]; split; [|exact W]).
      + destruct (Sx l H) as [k Ek]. unfold place_of in E. rewrite Ek, app_length in E. rewrite Ek.
        replace (N.to_nat K) with (List.length k + 0) by lia. rewrite skipn_app. replace (List.length k + 0 - List.length k) with 0 by lia.
        rewrite skipn_all2 by lia. reflexivity.
      + unfold place_of. rewrite E, skipn_length. assert (N.to_nat K <= List.length data); [|lia].
        destruct F3 as [[-> _]|(l0 & H0 & _ & E0)]; [cbn; lia|]. unfold place_of in E0. lia.
  Qed.
End Trace.
