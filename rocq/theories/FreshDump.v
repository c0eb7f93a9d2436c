(** A file none of whose cells is used twice is dumped without references. *)
From Verif Require Import Text GoAst Ast Utf8 Quote Parse Heap SpecHeap SpecFresh TreeFacts HeapFacts HeapDump SpecSyntax SpecDump SpecTrees SpecShare HeapDumpFacts HeapDumpUnique HeapParse HeapParseFacts.
From Coq Require Import Arith Lia NArith Bool FinFun.
Open Scope nat_scope.
Open Scope list_scope.

Lemma struct_events p ty fields : events (ostruct p ty fields) = Here p :: flat_map (fun f => evo (snd f)) fields.
Proof.
  unfold ostruct. cbn [events app]. f_equal. induction fields as [|[n [d|]] l IH]; cbn [flat_map snd fst app]; [reflexivity|rewrite IH; reflexivity|exact IH].
Qed.

Section Odoc.
  Variable wp : N -> bool.
  Variable g : nat -> option cell.
  Definition heres_of (d : odoc) (c : list nat) : Prop := exists ids, events d = map Here ids /\ le_cells ids c.
  Definition oheres_of (o : option odoc) (c : list nat) : Prop := exists ids, evo o = map Here ids /\ le_cells ids c.
  Lemma expr_heres p e : g p = Some (CExpr e) -> exists d, expr_odoc wp g p d /\ heres_of d [p].
  Proof.
    intros G. eexists. split; [apply eo_here; exact G|]. exists [p]. split; [|intros x; lia].
    rewrite struct_events. cbn [map flat_map snd]. f_equal. rewrite app_nil_r. destruct e; try reflexivity; apply plain_events.
  Qed.
  Lemma ptr_heres p o : expr_at g p o -> exists d, ptr_odoc wp g p d /\ oheres_of d (ptr_cells p).
  Proof.
    destruct p as [p|], o as [e|]; cbn; try contradiction.
    - intros G. destruct (expr_heres p e G) as (d & A & B). exists (Some d). split; [constructor; exact A|exact B].
    - intros _. exists None. split; [constructor|]. exists []. split; [reflexivity|intros x; lia].
  Qed.
  Lemma op_heres x o : op_at g x o -> exists d, op_odoc g x d /\ evo d = [].
  Proof.
    destruct x, o; cbn [op_at]; try contradiction; intros H.
    - eexists. split; [constructor|reflexivity].
    - eexists. split; [constructor; exact H|]. cbn [scalar option_map evo]. apply plain_events.
    - eexists. split; [constructor|reflexivity].
  Qed.
  Lemma list_heres (R : Heap.word -> odoc -> Prop) ws css : Forall2 (fun w c => exists d, R w d /\ heres_of d c) ws css ->
    exists ds ids, Forall2 R ws ds /\ flat_map events ds = map Here ids /\ le_cells ids (List.concat css).
  Proof.
    induction 1 as [|w c ws css (d & Rd & ids & E & L) F (ds & ids' & F' & E' & L')].
    - exists [], []. split; [constructor|]. split; [reflexivity|intros x; cbn; lia].
    - exists (d :: ds), (ids ++ ids'). split; [constructor; assumption|]. split; [cbn [flat_map]; rewrite E, E', map_app; reflexivity|].
      intros x. specialize (L x). specialize (L' x). cbn [List.concat]. cnts. lia.
  Qed.
  Lemma value_heres v : forall w c, value_at g w v -> value_cells g w c -> exists d, word_odoc wp g w d /\ heres_of d c.
  Proof.
    induction v as [s IH|e|x|] using value_ind'; intros w c V C; inversion V; subst.
    - match goal with H : g p = Some (CSExpr ?z) |- _ => rename z into cc; rename H into G end.
      inversion C as [p' c' ws' css G' Sl' Fc| | |]; subst. rewrite G in G'. injection G' as <-.
      assert (ws = ws') by (eapply slice_at_det; eassumption). subst ws'.
      match goal with H : op_at _ _ _ |- _ => destruct (op_heres _ _ H) as (o & Ro & Eo) end.
      match goal with H : expr_at _ (h_auxint cc) _ |- _ => destruct (ptr_heres _ _ H) as (ai & Ra & ia & Ea & La) end.
      match goal with H : expr_at _ (h_aux cc) _ |- _ => destruct (ptr_heres _ _ H) as (au & Ru & iu & Eu & Lu) end.
      assert (X : Forall2 (fun w c => exists d, word_odoc wp g w d /\ heres_of d c) ws css).
      { match goal with H : Forall2 (value_at g) ws (s_args s) |- _ => rename H into Fv end. cbn [s_args] in IH. clear - IH Fv Fc. revert css Fc. revert IH.
        induction Fv as [|w v ws vs V Fv IHv]; intros IH css Fc; inversion Fc; subst; constructor; inversion IH; subst; auto. }
      destruct (list_heres _ _ _ X) as (ds & ids & Fd & Ed & Ld).
      eexists. split; [eapply wo_sexpr; eassumption|]. exists (p :: ia ++ iu ++ ids). split.
      + rewrite struct_events. cbn [map flat_map snd]. f_equal. rewrite Eo, Ea, Eu, oslice_events, Ed. cbn [evo events scalar option_map bool_doc]. rewrite !map_app.
        destruct (h_ellipsis cc), (h_trailing cc); cbn; rewrite !app_nil_r; reflexivity.
      + intros x. specialize (La x). specialize (Lu x). specialize (Ld x). cnts. lia.
    - inversion C; subst. match goal with H : g p = _ |- _ => destruct (expr_heres _ _ H) as (d & A & B) end. exists d. split; [constructor; exact A|exact B].
    - exists (OLeaf x). split; [constructor|]. exists []. split; [reflexivity|intros y; cnts; lia].
    - exists (OLeaf (str "nil")). split; [constructor; cbn; auto|]. exists []. split; [reflexivity|intros y; cnts; lia].
  Qed.
  Lemma field_heres v w c : value_at g w v -> value_cells g w c -> exists d, field_odoc (word_odoc wp g) w d /\ oheres_of d c.
  Proof.
    intros V C. destruct (value_heres v w c V C) as (d & A & B). destruct w; try (exists (Some d); split; [constructor; [discriminate|exact A]|exact B]).
    exists None. split; [constructor|]. exists []. split; [reflexivity|intros y; cnts; lia].
  Qed.
  Lemma rule_heres w r c : rule_at g w r -> rule_cells g w c -> exists d, word_odoc wp g w d /\ heres_of d c.
  Proof.
    intros (p & x & -> & G & Vm & Vc & _ & Vr) (p' & x' & m & rr & E & G' & Cm & Cr & ->). injection E as <-. rewrite G in G'. injection G' as <-.
    destruct (field_heres _ _ _ Vm Cm) as (dm & A1 & i1 & E1 & L1). destruct (field_heres _ _ _ Vr Cr) as (dr & A2 & i2 & E2 & L2). destruct (ptr_heres _ _ Vc) as (dc & A3 & i3 & E3 & L3).
    eexists. split; [eapply wo_rule; eassumption|]. exists (p :: i1 ++ i3 ++ i2). split.
    - rewrite struct_events. cbn [map flat_map snd]. f_equal. rewrite E1, E2, E3, !map_app. cbn [scalar option_map]. unfold string_doc.
      cbn. rewrite !app_nil_r. reflexivity.
    - intros y. specialize (L1 y). specialize (L2 y). specialize (L3 y). cnts. lia.
  Qed.
  Lemma file_heres p f c : file_at g p f -> file_cells g p c -> exists d, node_odoc wp g (HFile (Some p)) d /\ heres_of d c.
  Proof.
    intros (sl & ws & G & Sl & F) (sl' & ws' & css & G' & Sl' & Fc & ->). rewrite G in G'. injection G' as <-.
    assert (ws = ws') by (eapply slice_at_det; eassumption). subst ws'.
    assert (X : Forall2 (fun w c => exists d, word_odoc wp g w d /\ heres_of d c) ws css).
    { clear - F Fc. revert css Fc. induction F as [|w v ws vs V F IH]; intros css Fc; inversion Fc; subst; constructor; eauto using rule_heres. }
    destruct (list_heres _ _ _ X) as (ds & ids & Fd & Ed & Ld). eexists. split; [eapply fl_some; eassumption|]. exists (p :: ids). split.
    - rewrite struct_events. cbn [map flat_map snd]. f_equal. rewrite oslice_events, Ed, app_nil_r. reflexivity.
    - intros y. specialize (Ld y). cnts. lia.
  Qed.
End Odoc.

Lemma heres_first d c : heres_of d c -> NoDup c -> first_met (events d) /\ forall a, ~ In (There a) (events d).
Proof.
  intros (ids & E & L) N. assert (Ni : NoDup ids) by (apply once_NoDup; intros x; specialize (L x); apply once_NoDup in N; specialize (N x); lia).
  assert (T : forall a, ~ In (There a) (events d)) by (intros a H; rewrite E in H; apply in_map_iff in H; destruct H as (y & H & _); discriminate).
  split; [|exact T]. split.
  - intros before a after Eb. split; [|intros H; apply (T a); rewrite Eb; apply in_or_app; auto].
    intros H. rewrite E in Eb. assert (Nm : NoDup (map Here ids)) by (apply Injective_map_NoDup; [intros x y Z; injection Z; auto|exact Ni]).
    rewrite Eb in Nm. apply NoDup_remove_2 in Nm. apply Nm, in_or_app. auto.
  - intros before a after Eb. exfalso. apply (T a). rewrite Eb. apply in_or_app. right. left. reflexivity.
Qed.

(** The cells are determined. *)
Section Fun.
  Variable g : nat -> option cell.
  Lemma value_cells_fun : forall w c, value_cells g w c -> forall c', value_cells g w c' -> c = c'.
  Proof.
    fix IH 3. intros w c H. destruct H as [p x ws css E Sl F|p|x|]; intros c' H'; inversion H' as [p' x' ws' css' E' Sl' F'| | |]; subst; try reflexivity.
    rewrite E in E'. injection E' as <-. assert (ws = ws') by (eapply slice_at_det; eassumption). subst ws'.
    assert (Q : css = css'); [|rewrite Q; reflexivity]. clear E Sl Sl' H'. revert css' F'. induction F as [|w cs ws css V F IHF]; intros css' F'; inversion F'; subst; [reflexivity|].
    f_equal; [eapply IH; eassumption|apply IHF; assumption].
  Qed.
  Lemma rule_cells_fun w c c' : rule_cells g w c -> rule_cells g w c' -> c = c'.
  Proof.
    intros (p & x & m & r & -> & E & A & B & ->) (p' & x' & m' & r' & X & E' & A' & B' & ->). injection X as <-. rewrite E in E'. injection E' as <-.
    rewrite (value_cells_fun _ _ A _ A'), (value_cells_fun _ _ B _ B'). reflexivity.
  Qed.
  Lemma file_cells_fun p c c' : file_cells g p c -> file_cells g p c' -> c = c'.
  Proof.
    intros (sl & ws & css & E & Sl & F & ->) (sl' & ws' & css' & E' & Sl' & F' & ->). rewrite E in E'. injection E' as <-.
    assert (ws = ws') by (eapply slice_at_det; eassumption). subst ws'. assert (Q : css = css'); [|rewrite Q; reflexivity]. clear -F F'. revert css' F'.
    induction F as [|w cs ws css V F IHF]; intros css' F'; inversion F'; subst; [reflexivity|]. f_equal; [eapply rule_cells_fun; eassumption|apply IHF; assumption].
  Qed.
End Fun.

Lemma plain_of_value v : Forall supported (value_exprs v) -> plain_value v.
Proof.
  induction v as [s IH|e|x|] using value_ind'; cbn [value_exprs plain_value]; intros S; auto.
  - apply Forall_app in S. destruct S as [S1 S]. apply Forall_app in S. destruct S as [S2 S3]. split; [|split].
    + destruct (s_auxint s); [|exact I]. inversion S1; subst. assumption.
    + destruct (s_aux s); [|exact I]. inversion S2; subst. assumption.
    + cbn [s_args] in IH. clear -IH S3. induction IH as [|a l Ha IH IHl]; [exact I|]. cbn in *. apply Forall_app in S3. split; [apply Ha|apply IHl]; tauto.
  - inversion S; subst. assumption.
Qed.
Lemma plain_of_exprs r : Forall supported (rule_exprs r) -> plain_rule r.
Proof.
  unfold rule_exprs. intros S. apply Forall_app in S. destruct S as [S1 S]. apply Forall_app in S. destruct S as [S2 S3].
  split; [apply plain_of_value; exact S1|]. split; [|apply plain_of_value; exact S3]. destruct (r_cond r); [|exact I]. inversion S2; subst. assumption.
Qed.
