(** A simulation between two grammars: inlining of rules, renaming of actions. *)
From Verif Require Import Text GoAst Ast Utf8 Peg PegSem.
From Coq Require Import NArith Arith Bool Lia.
Open Scope N_scope.

(** How the label environments of the two sides correspond: equal before and after;
    both empty before; or untouched and irrelevant. *)
Inductive mode := Same | Fresh | Obl.

Definition ins (m : mode) (en1 en2 : env) : Prop :=
  match m with Same => en1 = en2 | Fresh => en1 = [] /\ en2 = [] | Obl => True end.
Definition outs (vm : bool) (m : mode) (en1 en2 : env) (o1 o2 : out) : Prop :=
  match o1, o2 with
  | Fail, Fail => True
  | Good v1 e1 r1, Good v2 e2 r2 =>
      r1 = r2 /\ (vm = true -> v1 = v2) /\
      match m with Same => e1 = e2 | Fresh => True | Obl => e1 = en1 /\ e2 = en2 end
  | _, _ => False
  end.

Section Sim.
  Context {A1 A2 : Type}.
  Variable run1 : A1 -> text -> env -> ares.
  Variable run2 : A2 -> text -> env -> ares.
  Variable g1 : text -> option (pexpr A1).
  Variable g2 : text -> option (pexpr A2).
  Variable kept : text -> Prop.

  Notation S1 := (sem run1 g1).
  Notation S2 := (sem run2 g2).

  Inductive rel : bool -> mode -> pexpr A1 -> pexpr A2 -> Prop :=
  | r_same vm e1 e2 : rel vm Same e1 e2 -> rel vm Fresh e1 e2
  | r_obl vm m e1 e2 : rel vm Obl e1 e2 -> rel vm m e1 e2
  | r_unfL vm m n b e2 : g1 n = Some b -> m <> Same -> rel vm m b e2 -> rel vm m (PRef n) e2
  | r_unfR vm m n b e1 : g2 n = Some b -> m <> Same -> rel vm m e1 b -> rel vm m e1 (PRef n)
  | r_ref vm m n : kept n -> rel vm m (PRef n) (PRef n)
  | r_action vm a1 a2 e1 e2 : (forall t en, run1 a1 t en = run2 a2 t en) ->
      rel false Same e1 e2 -> rel vm Same (PAction a1 e1) (PAction a2 e2)
  | r_action_obl vm a1 a2 e1 e2 : (forall t en en', run1 a1 t en = run2 a2 t en') ->
      rel false Obl e1 e2 -> rel vm Obl (PAction a1 e1) (PAction a2 e2)
  | r_choice vm m es1 es2 : rel_alts vm es1 es2 -> rel vm m (PChoice es1) (PChoice es2)
  | r_label vm l e1 e2 : rel true Fresh e1 e2 -> rel vm Same (PLabel l e1) (PLabel l e2)
  | r_seq vm m es1 es2 : rel_seq vm m es1 es2 -> m <> Fresh -> rel vm m (PSeq es1) (PSeq es2)
  | r_not vm m e1 e2 : rel false Fresh e1 e2 -> rel vm m (PNot e1) (PNot e2)
  | r_opt vm m e1 e2 : rel vm Fresh e1 e2 -> rel vm m (POpt e1) (POpt e2)
  | r_star vm m e1 e2 : rel vm Fresh e1 e2 -> rel vm m (PStar e1) (PStar e2)
  | r_plus vm m e1 e2 : rel vm Fresh e1 e2 -> rel vm m (PPlus e1) (PPlus e2)
  | r_lit vm m rs w1 w2 : rel vm m (PLit rs w1) (PLit rs w2)
  | r_class vm m w1 w2 cs rs b : rel vm m (PClass w1 cs rs b) (PClass w2 cs rs b)
  | r_any vm m : rel vm m PAny PAny
  with rel_alts : bool -> list (pexpr A1) -> list (pexpr A2) -> Prop :=
  | ra_nil vm : rel_alts vm [] []
  | ra_cons vm e1 e2 es1 es2 : rel vm Fresh e1 e2 -> rel_alts vm es1 es2 -> rel_alts vm (e1 :: es1) (e2 :: es2)
  | ra_sem vm es1 es2 : (forall en1 en2 t o, sem_alts run1 g1 es1 en1 t o ->
        exists o2, sem_alts run2 g2 es2 en2 t o2 /\ outs vm Obl en1 en2 o o2) -> rel_alts vm es1 es2
  with rel_seq : bool -> mode -> list (pexpr A1) -> list (pexpr A2) -> Prop :=
  | rs_nil vm m : rel_seq vm m [] []
  | rs_cons vm m e1 e2 es1 es2 : rel vm m e1 e2 -> m <> Fresh -> rel_seq vm m es1 es2 ->
      rel_seq vm m (e1 :: es1) (e2 :: es2)
  | rs_flatR n l2 es1 es2 : g2 n = Some (PSeq l2) -> rel_fl es1 l2 es2 -> rel_seq false Obl es1 (PRef n :: es2)
  | rs_flatL n l2 es1 es2 : rel false Obl (PRef n) (PSeq l2) -> rel_seq false Obl es1 es2 ->
      rel_seq false Obl (PRef n :: es1) (l2 ++ es2)
  with rel_fl : list (pexpr A1) -> list (pexpr A2) -> list (pexpr A2) -> Prop :=
  | rf_one e1 e2 es1 es2 : rel false Obl e1 e2 -> rel_seq false Obl es1 es2 -> rel_fl (e1 :: es1) [e2] es2
  | rf_cons e1 e2 es1 l2 es2 : rel false Obl e1 e2 -> rel_fl es1 l2 es2 -> rel_fl (e1 :: es1) (e2 :: l2) es2.

  Hypothesis bodies : forall n, kept n -> exists b1 b2, g1 n = Some b1 /\ g2 n = Some b2 /\ rel true Fresh b1 b2.

  Definition Pe (e1 : pexpr A1) (en1 : env) (t : text) (o1 : out) : Prop :=
    forall vm m e2, rel vm m e1 e2 -> forall en2, ins m en1 en2 ->
    exists o2, S2 e2 en2 t o2 /\ outs vm m en1 en2 o1 o2.
  Definition Pa (es1 : list (pexpr A1)) (en1 : env) (t : text) (o1 : out) : Prop :=
    forall vm es2, rel_alts vm es1 es2 -> forall en2,
    exists o2, sem_alts run2 g2 es2 en2 t o2 /\ outs vm Obl en1 en2 o1 o2.
  Definition Ps1 (es1 : list (pexpr A1)) (vals1 : list val) (en1 : env) (t : text) (o1 : out) : Prop :=
    forall vm m es2, rel_seq vm m es1 es2 -> m <> Fresh -> forall en2 vals2, ins m en1 en2 -> (vm = true -> vals1 = vals2) ->
    exists o2, sem_seq run2 g2 es2 vals2 en2 t o2 /\ outs vm m en1 en2 o1 o2.
  Definition Ps2 (es1 : list (pexpr A1)) (en1 : env) (t : text) (o1 : out) : Prop :=
    forall l2 es2, rel_fl es1 l2 es2 ->
    (o1 = Fail /\ forall vals en2, sem_seq run2 g2 l2 vals en2 t Fail) \/
    exists r1, (forall vals en2, exists vs, sem_seq run2 g2 l2 vals en2 t (Good vs en2 r1)) /\
      forall vals en2, exists o2, sem_seq run2 g2 es2 vals en2 r1 o2 /\ outs false Obl en1 en2 o1 o2.
  Definition Ps es1 vals1 en1 t o1 : Prop := Ps1 es1 vals1 en1 t o1 /\ Ps2 es1 en1 t o1.
  Definition Pr (e1 : pexpr A1) (t : text) (vs1 : list val) (r : text) : Prop :=
    forall vm e2, rel vm Fresh e1 e2 -> exists vs2, sem_rep run2 g2 e2 t vs2 r /\
      (vm = true -> vs1 = vs2) /\ List.length vs1 = List.length vs2.

  (** The rules that do not look at the left expression. *)
  Lemma outs_same vm en o1 o2 en1 en2 : outs vm Same en1 en2 o1 o2 -> outs vm Fresh en en o1 o2.
  Proof. destruct o1, o2; cbn; tauto. Qed.
  Lemma outs_obl vm m en1 en2 o1 o2 : ins m en1 en2 -> outs vm Obl en1 en2 o1 o2 -> outs vm m en1 en2 o1 o2.
  Proof. destruct o1, o2; cbn; try tauto. intros I (-> & V & -> & ->). repeat split; auto. destruct m; cbn in *; tauto. Qed.
  Lemma ref2 vm m n b en1 en2 t o1 : g2 n = Some b -> m <> Same -> ins m en1 en2 ->
    (forall e, ins m en1 e -> exists o2, S2 b e t o2 /\ outs vm m en1 e o1 o2) ->
    exists o2, S2 (PRef n) en2 t o2 /\ outs vm m en1 en2 o1 o2.
  Proof.
    intros G M I H. destruct (H []) as (o2 & S & O); [destruct m; cbn in *; tauto|].
    destruct o2 as [|v e r].
    - exists Fail. split; [eapply sem_ref_fail; eauto|]. destruct o1; cbn in *; auto.
    - exists (Good v en2 r). split; [eapply sem_ref; eauto|].
      destruct o1; cbn in *; [auto|]. destruct O as (-> & V & O). repeat split; auto. destruct m; cbn in *; tauto.
  Qed.

  Lemma flat_app l2 : forall es2 vals vals' en t v en' r, sem_seq run2 g2 l2 vals en t (Good v en' r) ->
    exists vs, forall o, sem_seq run2 g2 es2 vs en' r o -> sem_seq run2 g2 (l2 ++ es2) vals' en t o.
  Proof.
    induction l2 as [|e l2 IH]; intros es2 vals vals' en t v en' r H; inversion H; subst.
    - exists vals'. auto.
    - match goal with G : sem_seq _ _ l2 _ _ _ _ |- _ => destruct (IH es2 _ (vals' ++ [v0]) _ _ _ _ _ G) as [vs K] end.
      exists vs. intros o O. cbn. eapply seq_cons; eauto.
  Qed.
  Lemma flat_fail l2 : forall es2 vals vals' en t, sem_seq run2 g2 l2 vals en t Fail ->
    sem_seq run2 g2 (l2 ++ es2) vals' en t Fail.
  Proof.
    induction l2 as [|e l2 IH]; intros es2 vals vals' en t H; inversion H; subst; cbn.
    - eapply seq_cons; eauto.
    - apply seq_fail. assumption.
  Qed.

  Ltac start :=
    let R := fresh "R" in let EX := fresh "EX" in let ex := fresh "ex" in let HI := fresh "HI" in
    intros; intros vm m e2 R;
    match type of R with rel _ _ ?x _ => remember x as ex eqn:EX end;
    induction R; intros en2 HI; try discriminate EX;
    [ (* same *) subst; destruct HI as [-> ->];
      match goal with IH : _ = _ -> forall e, ins Same _ _ -> _ |- _ =>
        destruct (IH eq_refl [] eq_refl) as (o2 & S & O); exists o2; split; [exact S|eapply outs_same; exact O] end
    | (* obl *) subst;
      match goal with IH : _ = _ -> forall e, ins Obl _ _ -> _ |- _ =>
        destruct (IH eq_refl en2 Logic.I) as (o2 & S & O); exists o2; split; [exact S|eapply outs_obl; eassumption] end
    | .. ];
    try (match goal with G : g2 _ = Some _, M : _ <> Same |- _ =>
      eapply ref2; [exact G|exact M|exact HI|]; intros; auto end; fail);
    try (inversion EX; subst; clear EX).

  Lemma flatR n l2 es1 es2 vals2 en1 en2 t o1 : g2 n = Some (PSeq l2) -> Ps2 es1 en1 t o1 -> rel_fl es1 l2 es2 ->
    exists o2, sem_seq run2 g2 (PRef n :: es2) vals2 en2 t o2 /\ outs false Obl en1 en2 o1 o2.
  Proof.
    intros G H F. destruct (H _ _ F) as [[-> K]|(r1 & K1 & K2)].
    - exists Fail. split; [|exact I]. apply seq_fail. eapply sem_ref_fail; [exact G|]. apply sem_sequence, K.
    - destruct (K1 [] []) as [vs V]. destruct (K2 (vals2 ++ [vs]) en2) as (o2 & S & O). exists o2. split; [|exact O].
      eapply seq_cons; [|exact S]. eapply sem_ref; [exact G|]. apply sem_sequence, V.
  Qed.

  Theorem sim : (forall e en t o, S1 e en t o -> Pe e en t o) /\
    (forall es en t o, sem_alts run1 g1 es en t o -> Pa es en t o) /\
    (forall es vals en t o, sem_seq run1 g1 es vals en t o -> Ps es vals en t o) /\
    (forall e t vs r, sem_rep run1 g1 e t vs r -> Pr e t vs r).
  Proof.
    apply sem_mutind.
    - (* action *) start.
      + cbn in HI. subst en2. destruct (H _ _ _ R en eq_refl) as (o2 & S & O). destruct o2; cbn in O; [contradiction|].
        destruct O as (-> & _ & ->). eexists. split; [eapply sem_action; [exact S|]|]. { rewrite <- H0. eassumption. }
        cbn. auto.
      + destruct (H _ _ _ R en2 Logic.I) as (o2 & S & O). destruct o2; cbn in O; [contradiction|].
        destruct O as (-> & _ & -> & ->). eexists. split; [eapply sem_action; [exact S|]|]. { erewrite <- H0. eassumption. }
        cbn. auto.
    - (* action fails *) start.
      + cbn in HI. subst en2. destruct (H _ _ _ R en eq_refl) as (o2 & S & O). destruct o2; cbn in O; [|contradiction].
        exists Fail. split; [apply sem_action_fail; exact S|exact Logic.I].
      + destruct (H _ _ _ R en2 Logic.I) as (o2 & S & O). destruct o2; cbn in O; [|contradiction].
        exists Fail. split; [apply sem_action_fail; exact S|exact Logic.I].
    - (* choice *) start. destruct (H _ _ H0 en2) as (o2 & S & O). exists o2. split; [apply sem_choice; exact S|]. eapply outs_obl; eassumption.
    - (* label *) start. cbn in HI. subst en2. destruct (H _ _ _ R [] (conj eq_refl eq_refl)) as (o2 & S & O).
      destruct o2; cbn in O; [contradiction|]. destruct O as (-> & V & _). rewrite (V eq_refl).
      eexists. split; [eapply sem_label; exact S|]. cbn. auto.
    - start. cbn in HI. subst en2. destruct (H _ _ _ R [] (conj eq_refl eq_refl)) as (o2 & S & O).
      destruct o2; cbn in O; [|contradiction].
      exists Fail. split; [eapply sem_label_fail; exact S|]. exact Logic.I.
    - (* sequence *) start. destruct (proj1 H _ _ _ H0 H1 en2 [] HI (fun _ => eq_refl)) as (o2 & S & O).
      exists o2. split; [apply sem_sequence; exact S|exact O].
    - (* not *) start. destruct (H _ _ _ R [] (conj eq_refl eq_refl)) as (o2 & S & O).
      destruct o2; cbn in O; [contradiction|]. exists Fail. split; [eapply sem_not; exact S|exact Logic.I].
    - start. destruct (H _ _ _ R [] (conj eq_refl eq_refl)) as (o2 & S & O).
      destruct o2; cbn in O; [|contradiction]. eexists. split; [eapply sem_not_fail; exact S|]. eapply outs_obl; [eassumption|]. cbn; auto.
    - (* opt *) start. destruct (H _ _ _ R [] (conj eq_refl eq_refl)) as (o2 & S & O).
      destruct o2; cbn in O; [contradiction|]. destruct O as (-> & V & _).
      eexists. split; [eapply sem_opt; exact S|]. eapply outs_obl; [eassumption|]. cbn; auto.
    - start. destruct (H _ _ _ R [] (conj eq_refl eq_refl)) as (o2 & S & O).
      destruct o2; cbn in O; [|contradiction]. eexists. split; [eapply sem_opt_fail; exact S|]. eapply outs_obl; [eassumption|]. cbn; auto.
    - (* star *) start. destruct (H _ _ R) as (vs2 & S & V & _).
      eexists. split; [eapply sem_star; exact S|]. eapply outs_obl; [eassumption|]. cbn. repeat split. intros E; rewrite (V E); reflexivity.
    - (* plus *) start. destruct (H _ _ R) as ([|v2 vs2] & S & V & L); [discriminate L|].
      eexists. split; [eapply sem_plus; exact S|]. eapply outs_obl; [eassumption|]. cbn. repeat split. intros E; rewrite (V E); reflexivity.
    - start. destruct (H _ _ R) as ([|v2 vs2] & S & V & L); [|discriminate L].
      exists Fail. split; [eapply sem_plus_fail; exact S|exact Logic.I].
    - (* ref *) start.
      + rewrite H0 in e. inversion e; subst. destruct (H _ _ _ R en2) as (o2 & S & O); [destruct m; cbn in *; tauto|].
        exists o2. split; [exact S|]. destruct o2; cbn in *; [contradiction|]. destruct O as (-> & V & O). repeat split; auto. destruct m; cbn in *; tauto.
      + destruct (bodies _ H0) as (b1 & b2 & G1 & G2 & R). rewrite G1 in e. inversion e; subst.
        destruct (H _ _ _ R [] (conj eq_refl eq_refl)) as (o2 & S & O). destruct o2; cbn in O; [contradiction|]. destruct O as (-> & V & _).
        eexists. split; [eapply sem_ref; eassumption|]. eapply outs_obl; [eassumption|]. cbn. auto.
    - start.
      + rewrite H0 in e. inversion e; subst. destruct (H _ _ _ R en2) as (o2 & S & O); [destruct m; cbn in *; tauto|].
        exists o2. split; [exact S|]. destruct o2; cbn in *; auto.
      + destruct (bodies _ H0) as (b1 & b2 & G1 & G2 & R). rewrite G1 in e. inversion e; subst.
        destruct (H _ _ _ R [] (conj eq_refl eq_refl)) as (o2 & S & O). destruct o2; cbn in O; [|contradiction].
        eexists. split; [eapply sem_ref_fail; eassumption|]. exact Logic.I.
    - (* lit *) start. eexists. split; [apply sem_lit; eassumption|]. eapply outs_obl; [eassumption|]. cbn; auto.
    - start. exists Fail. split; [apply sem_lit_fail; eassumption|exact Logic.I].
    - start. eexists. split; [apply sem_class; eassumption|]. eapply outs_obl; [eassumption|]. cbn; auto.
    - start. exists Fail. split; [apply sem_class_fail; eassumption|exact Logic.I].
    - start. eexists. split; [apply sem_any; eassumption|]. eapply outs_obl; [eassumption|]. cbn; auto.
    - start. exists Fail. split; [apply sem_any_fail; eassumption|exact Logic.I].
    - (* alternatives *) intros en t vm es2 R en2. inversion R; subst.
      + exists Fail. split; [apply alts_nil|exact Logic.I].
      + apply H. apply alts_nil.
    - intros e es en t v en' r S0 H vm es2 R en2. inversion R; subst.
      + match goal with G : rel _ Fresh _ _ |- _ => destruct (H _ _ _ G [] (conj eq_refl eq_refl)) as (o2 & S & O) end.
        destruct o2; cbn in O; [contradiction|]. destruct O as (-> & V & _).
        eexists. split; [eapply alts_good; exact S|]. cbn. auto.
      + apply H0. eapply alts_good; eassumption.
    - intros e es en t o S0 H S1' H1 vm es2 R en2. inversion R; subst.
      + match goal with G : rel _ Fresh _ _ |- _ => destruct (H _ _ _ G [] (conj eq_refl eq_refl)) as (o2 & S & O) end.
        destruct o2; cbn in O; [|contradiction].
        match goal with G : rel_alts _ es _ |- _ => destruct (H1 _ _ G en2) as (o2 & S' & O') end.
        exists o2. split; [eapply alts_fail; eassumption|exact O'].
      + apply H0. eapply alts_fail; eassumption.
    - (* sequences *) intros vals en t. split.
      + intros vm m es2 R M en2 vals2 I V. inversion R; subst.
        * eexists. split; [apply seq_nil|]. eapply outs_obl; [exact I|]. cbn. repeat split. intros E. rewrite (V E). reflexivity.
        * match goal with G : rel_fl [] _ _ |- _ => inversion G end.
      + intros l2 es2 R. inversion R.
    - intros e es vals en t v en' r o S0 H S1' [H1 H2].
      assert (Q2 : Ps2 (e :: es) en t o).
      { intros l2 es2 R. inversion R; subst.
        - match goal with G : rel _ _ e _ |- _ => rename G into Re end.
          right. destruct (H _ _ _ Re [] I) as (o2 & S & O). destruct o2; cbn in O; [contradiction|]. destruct O as (-> & _ & -> & ->).
          exists r0. split.
          + intros vals' en2. destruct (H _ _ _ Re en2 I) as (o2 & S' & O). destruct o2; cbn in O; [contradiction|]. destruct O as (-> & _ & _ & ->).
            eexists. eapply seq_cons; [exact S'|]. apply seq_nil.
          + intros vals' en2. eapply H1; [eassumption|discriminate|exact I|discriminate].
        - match goal with G : rel _ _ e _ |- _ => rename G into Re end.
          match goal with G : rel_fl es _ _ |- _ => rename G into Rf end.
          assert (En : en' = en) by (destruct (H _ _ _ Re [] I) as ([|? ? ?] & S & O); cbn in O; [contradiction|tauto]). subst en'.
          destruct (H2 _ _ Rf) as [[-> K]|(r1 & K1 & K2)].
          + left. split; [reflexivity|]. intros vals' en2. destruct (H _ _ _ Re en2 I) as (o2 & S' & O). destruct o2; cbn in O; [contradiction|]. destruct O as (-> & _ & _ & ->).
            eapply seq_cons; [exact S'|]. apply K.
          + right. exists r1. split; [|exact K2]. intros vals' en2. destruct (H _ _ _ Re en2 I) as (o2 & S' & O). destruct o2; cbn in O; [contradiction|]. destruct O as (-> & _ & _ & ->).
            destruct (K1 (vals' ++ [v0]) en2) as [vs V]. exists vs. eapply seq_cons; eassumption. }
      split; [|exact Q2].
      intros vm m es2 R M en2 vals2 HI V. inversion R; subst.
      + match goal with G : rel _ _ e _ |- _ => rename G into Re end.
        destruct (H _ _ _ Re en2 HI) as (o2 & S' & O). destruct o2; cbn in O; [contradiction|]. destruct O as (-> & V' & O).
        match goal with G : rel_seq _ _ es _ |- _ => destruct (H1 _ _ _ G M en0 (vals2 ++ [v0])) as (o2 & S2' & O2) end.
        * destruct m; cbn in *; tauto.
        * intros E. rewrite (V E), (V' E). reflexivity.
        * exists o2. split; [eapply seq_cons; eassumption|].
          destruct m; cbn in O; [subst; destruct o, o2; cbn in *; tauto|tauto|destruct O as [-> ->]; exact O2].
      + eapply flatR; eassumption.
      + match goal with G : rel _ _ (PRef _) _ |- _ => rename G into Re end.
        destruct (H _ _ _ Re en2 I) as (o2 & S' & O). destruct o2; cbn in O; [contradiction|]. destruct O as (-> & _ & -> & ->).
        inversion S'; subst.
        match goal with G : sem_seq _ _ l2 _ _ _ _ |- _ => destruct (flat_app _ es0 _ vals2 _ _ _ _ _ G) as [vs K] end.
        match goal with G : rel_seq _ _ es _ |- _ => destruct (H1 _ _ _ G M en2 vs I) as (o2 & S2' & O2); [discriminate|] end.
        exists o2. split; [apply K; exact S2'|exact O2].
    - intros e es vals en t S0 H.
      assert (Q2 : Ps2 (e :: es) en t Fail).
      { intros l2 es2 R. left. split; [reflexivity|]. intros vals' en2. inversion R; subst;
          match goal with G : rel _ _ e _ |- _ => destruct (H _ _ _ G en2 I) as (o2 & S & O) end; (destruct o2; cbn in O; [|contradiction]);
          apply seq_fail; exact S. }
      split; [|exact Q2].
      intros vm m es2 R M en2 vals2 HI V. inversion R; subst.
      + match goal with G : rel _ _ e _ |- _ => destruct (H _ _ _ G en2 HI) as (o2 & S & O) end. (destruct o2; cbn in O; [|contradiction]).
        exists Fail. split; [apply seq_fail; exact S|exact I].
      + eapply flatR; eassumption.
      + match goal with G : rel _ _ (PRef _) _ |- _ => destruct (H _ _ _ G en2 I) as (o2 & S & O) end. (destruct o2; cbn in O; [|contradiction]).
        exists Fail. split; [|exact I]. inversion S; subst. eapply flat_fail; eassumption.
    - (* repetition *) intros e t S0 H vm e2 R. destruct (H _ _ _ R [] (conj eq_refl eq_refl)) as (o2 & S & O). destruct o2; cbn in O; [|contradiction].
      exists []. split; [apply rep_nil; exact S|]. split; reflexivity.
    - intros e t v en r vs r' S0 H S1' H1 vm e2 R. destruct (H _ _ _ R [] (conj eq_refl eq_refl)) as (o2 & S & O). destruct o2; cbn in O; [contradiction|].
      destruct O as (-> & V & _). destruct (H1 _ _ R) as (vs2 & S2' & V2 & L). exists (v0 :: vs2). split; [eapply rep_cons; eassumption|].
      split; [intros E; rewrite (V E), (V2 E); reflexivity|cbn; rewrite L; reflexivity].
  Qed.
End Sim.
