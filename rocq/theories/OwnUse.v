(** What follows for those who edit an expanded file. *)
From Verif Require Import Text GoAst Ast Expand Heap SpecExpand SpecHeap SpecFresh SpecOwn TreeFacts ExpandFacts HeapFacts HeapParseFacts HeapDumpUnique OwnFacts.
From Coq Require Import Arith Lia Bool.
Open Scope nat_scope.
Open Scope list_scope.
Notation view h := (@nth_error cell h).

Lemma expand_own spare fuel f h F F' sl ws : view h f = Some (CFile sl) -> slice_at (view h) sl ws -> Forall2 (rule_at (view h)) ws (f_rules F) ->
  file_height F <= fuel -> ExpandAlternates F = Ok (F', None) ->
  exists h' sl' wss csss, h_ExpandAlternates spare fuel (Some f) h = (h', Ok tt) /\ view h' f = Some (CFile sl') /\ slice_at (view h') sl' (List.concat wss) /\
    rules_expanded (view h') (List.length h) (f_rules F) ws wss csss /\
    once (slice_cells sl' ++ List.concat (List.concat csss)) /\ within (List.length h) (List.length h') (slice_cells sl' ++ List.concat (List.concat csss)).
Proof.
  intros Gf Sl Fw Hh E. set (g := nofile (view h)). assert (S : sub g (view h)) by apply nofile_sub.
  assert (X : h_ExpandAlternates spare fuel (Some f) h = (do rs <- h_expandrules spare fuel sl (sl_len sl) 0 nil_slice; store f (CFile rs)) h).
  { cbn [h_ExpandAlternates]. rewrite (mbind_ok (get f) _ h h (CFile sl)) by (rewrite get_run, Gf; reflexivity). reflexivity. }
  assert (Er : exists ts, expandrules (f_rules F) = Ok ts).
  { unfold ExpandAlternates in E. destruct (expandrules (f_rules F)); try discriminate. eauto. }
  destruct Er as [ts Er].
  destruct (expandrules_own spare (List.length h) fuel sl ws (f_rules F) [] g h nil_slice [] ts (heights_le _ _ Hh) (slice_at_nofile _ _ _ Sl) (rules_nofile _ _ _ Fw) (le_n _) S (own_nil h) (hid_nil g) Er)
    as (h1 & sl1 & wss & g1 & csss & Q & Sg & Sv & O1 & Hd1 & B1 & L1 & R1 & Oc & Wc & Ar).
  cbn [List.length app] in Q, O1. assert (Ls : sl_len sl = List.length ws) by apply Sl. rewrite <- Ls in Q.
  pose proof (safe_expandrules spare h fuel sl (sl_len sl) 0 nil_slice (mine_nil h) h (keeps_refl h)) as [K M']. rewrite Q in K, M'. cbn [fst snd] in K, M'. specialize (M' sl1 eq_refl).
  destruct (own_view g1 h1 (List.length h) sl1 _ Sv O1 Hd1 M') as (g2 & Sg2 & Sh2 & B2 & Sl2).
  assert (Lf : f < List.length h) by (apply nth_error_Some; congruence). pose proof (keeps_len _ _ K) as Lk.
  assert (N : g2 f = None) by (apply B2; [exact Lf|]; apply B1; [exact Lf|]; unfold g, nofile; rewrite Gf; reflexivity).
  assert (S3 : sub g2 (view (put f (CFile sl1) h1))) by (apply sub_put; auto; lia).
  exists (put f (CFile sl1) h1), sl1, wss, csss. split; [rewrite X, (mbind_ok _ _ _ _ _ Q); apply store_ok; lia|].
  split; [rewrite put_spec, Nat.eqb_refl by lia; reflexivity|]. split; [eapply slice_at_mono; eauto|]. split; [eapply rules_expanded_mono; [exact (sub_trans _ _ _ Sg2 S3)|exact R1]|].
  rewrite put_length by lia. destruct (slice_cells_in h h1 sl1 _ O1 M') as [Os Ws].
  assert (D : forall x, cnt (slice_cells sl1) x > 0 -> cnt (List.concat (List.concat csss)) x = 0).
  { intros x P. pose proof (own_cap _ _ _ O1) as Oz. unfold slice_cells in P. destruct (sl_cap sl1 + sl_len sl1) eqn:Z; [rewrite cnt_nil in P; lia|].
    rewrite cnt_cons, cnt_nil in P. destruct (Nat.eq_dec (sl_arr sl1) x) as [<-|]; [|lia].
    destruct Ar as [Y|[[Y _]|[_ Y]]]; [specialize (Oz Y); lia|cbn in Y; lia|exact Y]. }
  split; intros x; rewrite cnt_app; specialize (D x); specialize (Os x); specialize (Ws x); specialize (Oc x); specialize (Wc x).
  - destruct (Nat.eq_dec (cnt (slice_cells sl1) x) 0); lia.
  - intros P. destruct (Nat.eq_dec (cnt (slice_cells sl1) x) 0); lia.
Qed.

(** ** Reading again after an edit *)
Definition agree_off (a : nat) (g g' : nat -> option cell) : Prop := forall q, q <> a -> g' q = g q.
Lemma write_off a c h : agree_off a (view h) (view (write a c h)).
Proof.
  intros q N. unfold write. destruct (Nat.ltb_spec a (List.length h)) as [L|]; [|reflexivity]. rewrite put_spec by exact L. destruct (Nat.eqb_spec q a); [contradiction|reflexivity].
Qed.
Lemma in_slice_cells sl : sl_len sl <> 0 -> In (sl_arr sl) (slice_cells sl).
Proof. intros N. unfold slice_cells. destruct (sl_cap sl + sl_len sl) eqn:Z; [lia|]. left. reflexivity. Qed.

Section Edit.
  Variables (g g' : nat -> option cell) (a : nat).
  Hypothesis A : agree_off a g g'.
  Lemma slice_edit sl ws : ~ In a (slice_cells sl) -> slice_at g sl ws -> slice_at g' sl ws.
  Proof.
    intros N [L [->|(x & y & E & La)]]; (split; [exact L|]); [left; reflexivity|]. destruct ws as [|w ws]; [left; reflexivity|right]. exists x, y. split; [|exact La].
    rewrite A; [exact E|]. intros Q. apply N. rewrite <- Q. apply in_slice_cells. rewrite L. discriminate.
  Qed.
  Lemma expr_edit p o : ~ In a (ptr_cells p) -> expr_at g p o -> expr_at g' p o.
  Proof. destruct p as [p|], o; cbn; auto. intros N E. rewrite A; [exact E|]. intros ->. apply N. auto. Qed.
  Lemma op_edit x o : ~ In a (op_cells x) -> op_at g x o -> op_at g' x o.
  Proof. destruct x as [|p|], o; cbn; auto. intros N E. rewrite A; [exact E|]. intros ->. apply N. auto. Qed.
  Lemma value_edit v : forall w cs, value_at g w v -> value_cells g w cs -> ~ In a cs -> value_at g' w v.
  Proof.
    induction v as [s IH|e|x|] using value_ind'; intros w cs V C N; inversion V as [p c s0 ws H0 H1 H2 H3 H4 H5 H6 H7 H8 H9|p e0 He| |]; subst; try constructor.
    - inversion C as [p' c' ws' css G' Sl' Fc| | |]; subst. rewrite H0 in G'. injection G' as <-.
      assert (ws = ws') by (eapply slice_at_det; eassumption). subst ws'. cbn [In] in N. rewrite !in_app_iff in N.
      apply (at_sexpr g' p c s ws); auto; [rewrite A; [exact H0|]; intros ->; tauto|apply op_edit; tauto|apply expr_edit; tauto|apply expr_edit; tauto|apply slice_edit; tauto|].
      assert (Nc : ~ In a (List.concat css)) by tauto. clear -IH H7 Fc Nc. revert css Fc Nc. induction H7 as [|w v ws vs V F IHF]; intros css Fc Nc; inversion Fc as [|? cs0 ? css0 C0 Fc0]; subst; constructor; cbn [List.concat] in Nc; rewrite in_app_iff in Nc.
      + apply Forall_cons_iff in IH. apply (proj1 IH w cs0); auto.
      + apply Forall_cons_iff in IH. apply (IHF (proj2 IH) css0); auto.
    - inversion C; subst. rewrite A; [exact He|]. intros ->. apply N. left. reflexivity.
  Qed.
  Lemma rule_edit w r cs : rule_at g w r -> rule_cells g w cs -> ~ In a cs -> rule_at g' w r.
  Proof.
    intros (p & c & -> & E & V1 & V2 & V3 & V4) (p' & c' & m & x & Q & E' & C1 & C2 & ->) N. injection Q as <-. rewrite E in E'. injection E' as <-. cbn [In] in N. rewrite !in_app_iff in N.
    exists p, c. split; [reflexivity|]. split; [rewrite A; [exact E|]; intros ->; tauto|]. split; [eapply value_edit; [exact V1|exact C1|tauto]|].
    split; [apply expr_edit; tauto|]. split; [exact V3|eapply value_edit; [exact V4|exact C2|tauto]].
  Qed.
End Edit.

(** ** Trees are determined *)
Section Fun.
  Variable g : nat -> option cell.
  Lemma expr_at_fun p o o' : expr_at g p o -> expr_at g p o' -> o = o'.
  Proof. destruct p, o, o'; cbn; try contradiction; try reflexivity. congruence. Qed.
  Lemma op_at_fun x o o' : op_at g x o -> op_at g x o' -> o = o'.
  Proof. destruct x, o, o'; cbn; try contradiction; try reflexivity; congruence. Qed.
  Lemma value_at_fun v : forall w v', value_at g w v -> value_at g w v' -> v = v'.
  Proof.
    induction v as [s IH|e|x|] using value_ind'; intros w v' V V'; inversion V as [p c s0 ws H0 H1 H2 H3 H4 H5 H6 H7 H8 H9|p e0 He| |]; subst; inversion V' as [p' c' s' ws' K0 K1 K2 K3 K4 K5 K6 K7 K8 K9|p' e' Ke| |]; subst; try reflexivity; [|congruence].
    rewrite H0 in K0. injection K0 as <-. assert (ws = ws') by (eapply slice_at_det; eassumption). subst ws'. f_equal.
    pose proof (op_at_fun _ _ _ H2 K2) as Q1. pose proof (expr_at_fun _ _ _ H4 K4) as Q2. pose proof (expr_at_fun _ _ _ H5 K5) as Q3.
    assert (Q4 : s_args s = s_args s').
    { clear -IH H7 K7. revert K7. generalize (s_args s'). induction H7 as [|w v ws vs V F IHF]; intros l K7; inversion K7; subst; [reflexivity|]. apply Forall_cons_iff in IH. f_equal; [eapply (proj1 IH); eassumption|apply (IHF (proj2 IH)); assumption]. }
    destruct s, s'; cbn in *; congruence.
  Qed.
  Lemma rule_at_fun w r r' : rule_at g w r -> rule_at g w r' -> r = r'.
  Proof.
    intros (p & c & -> & E & A1 & A2 & A3 & A4) (p' & c' & Q & E' & B1 & B2 & B3 & B4). injection Q as <-. rewrite E in E'. injection E' as <-.
    pose proof (value_at_fun _ _ _ A1 B1). pose proof (value_at_fun _ _ _ A4 B4). pose proof (expr_at_fun _ _ _ A2 B2). destruct r, r'; cbn in *; congruence.
  Qed.
End Fun.

(** ** New cells *)
Section New.
  Variables (g0 g g' : nat -> option cell) (a old : nat).
  Hypothesis S : sub g0 g.
  Hypothesis S' : sub g0 g'.
  Hypothesis A : agree_off a g g'.
  Lemma old_expr p o o' : expr_at g0 p o -> expr_at g p o' -> expr_at g' p o'.
  Proof. intros H K. rewrite (expr_at_fun g p o' o) by (try exact K; eapply expr_at_mono; eauto). eapply expr_at_mono; eauto. Qed.
  Lemma copied_edit :
    (forall v w w' cs, copied g old v w w' cs -> value_at g0 w v -> ~ In a cs -> forall t, value_at g w' t -> value_at g' w' t) /\
    (forall vs ws ws' cs, all_copied g old vs ws ws' cs -> Forall2 (value_at g0) ws vs -> ~ In a cs -> forall ts, Forall2 (value_at g) ws' ts -> Forall2 (value_at g') ws' ts).
  Proof.
    apply copied_mutind.
    - intros v w _ V _ t T. rewrite (value_at_fun g t w v) by (try exact T; eapply value_at_mono; eauto). eapply value_at_mono; eauto.
    - intros s p c ws q o args ws' cs Vg Gp Ha Lq Gq La Sl _ IH V N t T. cbn [In] in N. rewrite in_app_iff in N.
      inversion V as [p0 c0 s0 ws0 H0 H1 H2 H3 H4 H5 H6 H7 H8 H9| | |]; subst. pose proof (S _ _ H0) as Gp'. rewrite Gp in Gp'. injection Gp' as <-.
      assert (ws = ws0) by (eapply slice_at_det; [exact Ha|eapply slice_at_mono; eauto]). subst ws0.
      inversion T as [q' c' s' ws2 K0 K1 K2 K3 K4 K5 K6 K7 K8 K9| | |]; subst. rewrite Gq in K0. injection K0 as <-. cbn [h_binding h_op h_type h_auxint h_aux h_args h_ellipsis h_trailing] in *.
      assert (ws' = ws2) by (eapply slice_at_det; eassumption). subst ws2.
      eapply at_sexpr; [rewrite A; [exact Gq|]; intros ->; tauto|..]; cbn [h_binding h_op h_type h_auxint h_aux h_args h_ellipsis h_trailing]; auto.
      + eapply old_expr; eauto. + eapply old_expr; eauto. + eapply slice_edit; [exact A|tauto|exact K6]. + eapply IH; [exact H7|tauto|exact K7].
    - intros _ _ ts T. inversion T; constructor.
    - intros v vs w ws w' ws' c cs _ IH1 _ IH2 F N ts T. rewrite in_app_iff in N. inversion F; subst. inversion T; subst. constructor; auto.
  Qed.
  Lemma rule_copied_edit r w w' cs : rule_copied g old r w w' cs -> rule_at g0 w r -> ~ In a cs -> forall t, rule_at g w' t -> rule_at g' w' t.
  Proof.
    intros (p & c & q & m & x & ms & xs & -> & Gp & -> & Lq & Gq & Cm & Cx & ->) (p' & c' & Q & E & V1 & V2 & V3 & V4) N t (q' & d & Q' & E' & T1 & T2 & T3 & T4).
    injection Q as <-. injection Q' as <-. pose proof (S _ _ E) as E2. rewrite Gp in E2. injection E2 as <-. rewrite Gq in E'. injection E' as <-. cbn [h_match h_cond h_block h_result] in *.
    cbn [In] in N. rewrite in_app_iff in N. exists q. eexists. split; [reflexivity|]. split; [rewrite A; [exact Gq|]; intros ->; tauto|]. cbn [h_match h_cond h_block h_result].
    split; [eapply (proj1 copied_edit); [exact Cm|exact V1|tauto|exact T1]|]. split; [eapply old_expr; eauto|]. split; [exact T3|]. eapply (proj1 copied_edit); [exact Cx|exact V4|tauto|exact T4].
  Qed.
End New.

(** ** All cells *)
Lemma copied_cells g old :
  (forall v w w' cs, copied g old v w w' cs -> forall oc, value_cells g w oc -> exists c', value_cells g w' c' /\ forall a, cnt cs a <= cnt c' a <= cnt cs a + cnt oc a) /\
  (forall vs ws ws' cs, all_copied g old vs ws ws' cs -> forall ocs, Forall2 (value_cells g) ws ocs ->
    exists cs', Forall2 (value_cells g) ws' cs' /\ forall a, cnt cs a <= cnt (List.concat cs') a <= cnt cs a + cnt (List.concat ocs) a).
Proof.
  apply copied_mutind.
  - intros v w _ oc C. exists oc. split; [exact C|]. intros a. rewrite cnt_nil. lia.
  - intros s p c ws q o args ws' cs Vg Gp Ha Lq Gq La Sl _ IH oc C. inversion C as [p' c' ws0 css G' Sl' Fc| | |]; subst. rewrite Gp in G'. injection G' as <-.
    assert (ws = ws0) by (eapply slice_at_det; eassumption). subst ws0. destruct (IH _ Fc) as (cs' & F' & B). eexists. split; [eapply vc_sexpr; [exact Gq|exact Sl|exact F']|].
    intros x. cbn [h_op h_auxint h_aux h_args op_cells app]. specialize (B x). rewrite ?cnt_cons, ?cnt_app, ?cnt_cons, ?cnt_app. lia.
  - intros ocs F. inversion F; subst. exists []. split; [constructor|]. intros a. cbn. lia.
  - intros v vs w ws w' ws' c cs _ IH1 _ IH2 ocs F. inversion F as [|? oc ? ocs' Co Fo]; subst. destruct (IH1 _ Co) as (c' & C' & B1). destruct (IH2 _ Fo) as (cs' & F' & B2).
    exists (c' :: cs'). split; [constructor; assumption|]. intros a. cbn [List.concat]. rewrite !cnt_app. specialize (B1 a). specialize (B2 a). lia.
Qed.
Lemma rule_copied_cells g old r w w' cs oc : rule_copied g old r w w' cs -> rule_cells g w oc -> exists c', rule_cells g w' c' /\ forall a, cnt cs a <= cnt c' a <= cnt cs a + cnt oc a.
Proof.
  intros (p & c & q & m & x & ms & xs & -> & Gp & -> & Lq & Gq & Cm & Cx & ->) (p' & c' & om & ox & Q & E & C1 & C2 & ->). injection Q as <-. rewrite Gp in E. injection E as <-.
  destruct (proj1 (copied_cells g old) _ _ _ _ Cm _ C1) as (m' & Vm & Bm). destruct (proj1 (copied_cells g old) _ _ _ _ Cx _ C2) as (x' & Vx & Bx).
  eexists. split; [exists q; eexists; exists m', x'; split; [reflexivity|]; split; [exact Gq|]; cbn [h_match h_cond h_result]; auto|].
  intros a. cbn [h_cond]. specialize (Bm a). specialize (Bx a). rewrite !cnt_cons, !cnt_app. lia.
Qed.

Lemma value_cells_nofile g : forall w c, value_cells g w c -> value_cells (nofile g) w c.
Proof.
  fix IH 3. intros w c H. destruct H as [p c ws css E Sl F|p|x|]; try constructor.
  econstructor; [apply nofile_is; [exact E|discriminate]|apply slice_at_nofile; exact Sl|]. clear E Sl. induction F as [|w cs ws css V F IHF]; constructor; [apply IH; exact V|exact IHF].
Qed.
Lemma rule_cells_nofile g w c : rule_cells g w c -> rule_cells (nofile g) w c.
Proof. intros (p & x & m & r & -> & E & A & B & ->). exists p, x, m, r. split; [reflexivity|]. split; [apply nofile_is; [exact E|discriminate]|]. auto using value_cells_nofile. Qed.

(** ** The file as a whole *)
Lemma cnt_in l (a : nat) : In a l <-> cnt l a > 0. Proof. apply (count_occ_In Nat.eq_dec). Qed.
Lemma once_app a b : once (a ++ b) -> once a /\ once b /\ forall x, cnt a x > 0 -> cnt b x > 0 -> False.
Proof. intros O. split; [|split]; intros x; specialize (O x); rewrite cnt_app in O; lia. Qed.
Lemma one_group (L : list (list nat)) a : (forall i j x y, i <> j -> nth_error L i = Some x -> nth_error L j = Some y -> In a x -> ~ In a y) ->
  exists i, forall j l, j <> i -> nth_error L j = Some l -> ~ In a l.
Proof.
  induction L as [|x L IH]; intros D; [exists 0; intros [|j] l _ E; discriminate|]. destruct (in_dec Nat.eq_dec a x) as [I|I].
  - exists 0. intros [|j] l N E; [contradiction|]. apply (D 0 (S j) x l); auto.
  - destruct IH as [i Hi]; [intros i j y z N Y Z; apply (D (S i) (S j)); auto|]. exists (S i). intros [|j] l N E; [injection E as <-; exact I|]. apply (Hi j); auto.
Qed.
Lemma once_groups L : once (List.concat L) -> forall i j x y a, i <> j -> nth_error L i = Some x -> nth_error L j = Some y -> cnt x a > 0 -> cnt y a > 0 -> False.
Proof.
  induction L as [|z L IH]; intros O [|i] [|j] x y a N X Y Px Py; try discriminate; [contradiction|..]; cbn [nth_error List.concat] in *; apply once_app in O; destruct O as (O1 & O2 & D).
  - injection X as <-. apply (D a Px). assert (In a (List.concat L)) by (apply in_concat; exists y; split; [eapply nth_error_In; eauto|apply cnt_in; lia]). apply cnt_in. assumption.
  - injection Y as <-. apply (D a Py). assert (In a (List.concat L)) by (apply in_concat; exists x; split; [eapply nth_error_In; eauto|apply cnt_in; lia]). apply cnt_in. assumption.
  - apply (IH O2 i j x y a); auto.
Qed.
Lemma concat_groups (L : list (list (list nat))) : List.concat (List.concat L) = List.concat (map (@List.concat nat) L).
Proof. induction L as [|x L IH]; [reflexivity|]. cbn [List.concat map]. rewrite concat_app, IH. reflexivity. Qed.
Lemma cnt_concat_in L l (a : nat) : In l L -> cnt l a <= cnt (List.concat L) a.
Proof. induction L as [|x L IH]; [contradiction|]. cbn [List.concat]. rewrite cnt_app. intros [->|I]; [lia|specialize (IH I); lia]. Qed.

Section File.
  Variables (g0 g : nat -> option cell) (old : nat).
  Lemma expanded_rules rs ws wss csss : rules_expanded g old rs ws wss csss -> Forall2 (rule_at g0) ws rs ->
    Forall2 (fun w' cs => (exists r, rule_at g0 w' r) \/ exists r w, rule_at g0 w r /\ rule_copied g old r w w' cs) (List.concat wss) (List.concat csss).
  Proof.
    intros R. induction R as [|r rs w ws x xs y ys E R IH]; intros F; inversion F; subst; cbn [List.concat]; [constructor|]. apply Forall2_app; [|apply IH; assumption].
    destruct E as [(_ & -> & ->)|(_ & _ & C)]; [constructor; [left; eauto|constructor]|]. eapply Forall2_mono; [|exact C]. intros a b Q. right. eauto.
  Qed.
  Lemma expanded_cells rs ws wss csss : rules_expanded g old rs ws wss csss -> forall ocs, Forall2 (rule_cells g) ws ocs ->
    exists dsss, Forall2 (Forall2 (rule_cells g)) wss dsss /\
      forall k ds, nth_error dsss k = Some ds -> exists css oc, nth_error csss k = Some css /\ nth_error ocs k = Some oc /\
        Forall2 (fun d cs => forall a, cnt cs a <= cnt d a <= cnt cs a + cnt oc a) ds css.
  Proof.
    intros R. induction R as [|r rs w ws x xs y ys E R IH]; intros ocs F; inversion F as [|? oc ? ocs' C F']; subst.
    - exists []. split; [constructor|]. intros [|k] ds X; discriminate.
    - destruct (IH _ F') as (dsss & A & B).
      assert (X : exists ds, Forall2 (rule_cells g) x ds /\ Forall2 (fun d cs => forall a, cnt cs a <= cnt d a <= cnt cs a + cnt oc a) ds y).
      { destruct E as [(_ & -> & ->)|(_ & _ & Q)].
        - exists [oc]. split; [repeat constructor; exact C|]. constructor; [intros a; rewrite cnt_nil; lia|constructor].
        - clear -Q C. induction Q as [|w' cs ws' css Q1 Q IHQ]; [exists []; split; constructor|]. destruct IHQ as (ds & A & B). destruct (rule_copied_cells _ _ _ _ _ _ _ Q1 C) as (d & D1 & D2).
          exists (d :: ds). split; constructor; assumption. }
      destruct X as (ds & D1 & D2). exists (ds :: dsss). split; [constructor; assumption|]. intros [|k] ds' Hk; [injection Hk as <-; exists y, oc; auto|exact (B k ds' Hk)].
  Qed.
  Lemma expanded_counts rs ws wss csss : rules_expanded g old rs ws wss csss -> Forall2 (fun r ws' => List.length ws' = arity (rule_groups r)) rs wss.
  Proof. intros R. induction R as [|r rs w ws x xs y ys E R IH]; constructor; auto. destruct E as [(-> & -> & _)|(_ & L & _)]; [reflexivity|exact L]. Qed.
End File.

Lemma expand_file_cells spare fuel f h h' F cells : file_at (view h) f F -> file_cells (view h) f cells -> NoDup cells -> (forall a, In a cells -> nth_error h a <> None) ->
  file_height F <= fuel -> h_ExpandAlternates spare fuel (Some f) h = (h', Ok tt) ->
  exists sl wss dsss, view h' f = Some (CFile sl) /\ slice_at (view h') sl (List.concat wss) /\ Forall2 (fun r ws => List.length ws = arity (rule_groups r)) (f_rules F) wss /\
    Forall2 (Forall2 (rule_cells (view h'))) wss dsss /\ (forall cs, In cs (List.concat dsss) -> NoDup cs) /\
    (forall i j cs ds a, i <> j -> nth_error dsss i = Some cs -> nth_error dsss j = Some ds -> In a (List.concat cs) -> ~ In a (List.concat ds)) /\
    (forall a, nth_error h a = None -> cnt (List.concat (List.concat dsss)) a <= 1).
Proof.
  intros (sl & ws & Gf & Sl & Fw) (sl0 & ws0 & ocs & Gf0 & Sl0 & Fc & ->) N Dg Hh E. rewrite Gf in Gf0. injection Gf0 as <-. assert (ws = ws0) by (eapply slice_at_det; eassumption). subst ws0.
  assert (X : exists F', ExpandAlternates F = Ok (F', None)).
  { pose proof (expand_ok spare fuel f h F (ex_intro _ sl (ex_intro _ ws (conj Gf (conj Sl Fw)))) Hh) as Q. destruct (ExpandAlternates F) as [[F' [e|]]|e|m]; [destruct Q as (? & Q & _); congruence|eauto|contradiction|destruct Q as (? & Q & _); congruence]. }
  destruct X as [F' X]. destruct (expand_own spare fuel f h F F' sl ws Gf Sl Fw Hh X) as (h2 & sl' & wss & csss & E2 & Gf' & Sl' & R & Oc & Wc). rewrite E in E2. injection E2 as <-.
  pose proof (expand_keeps _ _ _ _ _ _ E) as Kp.
  assert (Fc' : Forall2 (rule_cells (view h')) ws ocs) by (eapply Forall2_mono; [|exact Fc]; intros a b Q; eapply rule_cells_mono; [exact Kp|apply rule_cells_nofile; exact Q]).
  destruct (expanded_cells _ _ _ _ _ _ R ocs Fc') as (dsss & Fd & B). exists sl', wss, dsss. split; [exact Gf'|]. split; [exact Sl'|]. split; [eapply expanded_counts; exact R|]. split; [exact Fd|].
  apply once_app in Oc. destruct Oc as (_ & Oc & _). assert (Wc' : within (List.length h) (List.length h') (List.concat (List.concat csss))) by (intros x P; apply Wc; rewrite cnt_app; lia).
  apply once_NoDup in N. change (f :: slice_cells sl ++ List.concat ocs) with ((f :: slice_cells sl) ++ List.concat ocs) in N. apply once_app in N. destruct N as (_ & No & _).
  assert (Wo : forall x, cnt (List.concat ocs) x > 0 -> x < List.length h).
  { intros x P. apply nth_error_Some, Dg. right. apply in_app_iff. right. apply cnt_in. exact P. }
  (* a cell of a rule is one of its new ones or an old one *)
  assert (In1 : forall k ds css oc a, nth_error dsss k = Some ds -> nth_error csss k = Some css -> nth_error ocs k = Some oc -> cnt (List.concat ds) a > 0 -> cnt (List.concat css) a > 0 \/ cnt oc a > 0).
  { intros k ds css oc a H1 H2 H3 P. destruct (B k ds H1) as (css' & oc' & H2' & H3' & Q). rewrite H2 in H2'. injection H2' as <-. rewrite H3 in H3'. injection H3' as <-.
    clear -Q P. induction Q as [|d cs ds css Q1 Q IHQ]; [cbn in P; lia|]. cbn [List.concat] in *. rewrite cnt_app in *. specialize (Q1 a). lia. }
  split; [|split].
  - intros d Hd. apply in_concat in Hd. destruct Hd as (ds & Hds & Hd). apply In_nth_error in Hds. destruct Hds as [k Hk]. destruct (B k ds Hk) as (css & oc & H1 & H2 & Q).
    apply once_NoDup. intros a.
    assert (Y : exists cs, In cs css /\ cnt d a <= cnt cs a + cnt oc a).
    { clear -Q Hd. induction Q as [|d0 cs ds css Q1 Q IHQ]; [contradiction|]. destruct Hd as [->|Hd]; [exists cs; split; [left; reflexivity|apply Q1]|]. destruct (IHQ Hd) as (c & I & L). exists c. split; [right; exact I|exact L]. }
    destruct Y as (cs & I & L). pose proof (cnt_concat_in css cs a I) as L1.
    assert (L3 : cnt cs a <= cnt (List.concat (List.concat csss)) a).
    { apply cnt_concat_in. apply in_concat. exists css. split; [eapply nth_error_In; eauto|exact I]. }
    assert (L4 : cnt oc a <= cnt (List.concat ocs) a) by (apply cnt_concat_in; eapply nth_error_In; eauto).
    specialize (Oc a). specialize (No a). specialize (Wc' a). specialize (Wo a). destruct (Nat.eq_dec (cnt cs a) 0), (Nat.eq_dec (cnt oc a) 0); lia.
  - intros i j cs ds a Nij Hi Hj Ia Ja. apply cnt_in in Ia, Ja. destruct (B i cs Hi) as (csi & oci & Ci & Oi & _). destruct (B j ds Hj) as (csj & ocj & Cj & Oj & _).
    assert (Gi : cnt (List.concat csi) a <= cnt (List.concat (List.concat csss)) a).
    { clear -Ci. revert i Ci. induction csss as [|x l IH]; intros [|i] E; try discriminate; cbn [nth_error List.concat] in *; rewrite concat_app, cnt_app; [injection E as ->; lia|specialize (IH i E); lia]. }
    assert (Gj : cnt (List.concat csj) a <= cnt (List.concat (List.concat csss)) a).
    { clear -Cj. revert j Cj. induction csss as [|x l IH]; intros [|i] E; try discriminate; cbn [nth_error List.concat] in *; rewrite concat_app, cnt_app; [injection E as ->; lia|specialize (IH i E); lia]. }
    assert (Hoi : cnt oci a <= cnt (List.concat ocs) a) by (apply cnt_concat_in; eapply nth_error_In; eauto).
    assert (Hoj : cnt ocj a <= cnt (List.concat ocs) a) by (apply cnt_concat_in; eapply nth_error_In; eauto).
    specialize (Wc' a). specialize (Wo a).
    destruct (In1 i cs csi oci a Hi Ci Oi Ia) as [P|P], (In1 j ds csj ocj a Hj Cj Oj Ja) as [P'|P']; try lia.
    + assert (O' : once (List.concat (map (@List.concat nat) csss))) by (rewrite <- concat_groups; exact Oc).
      apply (once_groups _ O' i j (List.concat csi) (List.concat csj) a Nij); auto; rewrite nth_error_map; [rewrite Ci|rewrite Cj]; reflexivity.
    + apply (once_groups _ No i j oci ocj a Nij); auto.
  - intros a Na. apply nth_error_None in Na. transitivity (cnt (List.concat (List.concat csss)) a); [|apply Oc].
    assert (Y : forall k ds css, nth_error dsss k = Some ds -> nth_error csss k = Some css -> cnt (List.concat ds) a = cnt (List.concat css) a).
    { intros k ds css Hk Hc. destruct (B k ds Hk) as (css' & oc & Hc' & Ho & Q). rewrite Hc in Hc'. injection Hc' as <-.
      assert (Z : cnt oc a = 0). { assert (cnt oc a <= cnt (List.concat ocs) a) by (apply cnt_concat_in; eapply nth_error_In; eauto). specialize (Wo a). lia. }
      clear -Q Z. induction Q as [|d cs ds css Q1 Q IHQ]; [reflexivity|]. cbn [List.concat]. rewrite !cnt_app, IHQ. specialize (Q1 a). lia. }
    assert (Z : forall k ds, nth_error dsss k = Some ds -> exists css, nth_error csss k = Some css) by (intros k ds Hk; destruct (B k ds Hk) as (css & _ & Q & _); eauto).
    clear -Y Z. revert csss Y Z. induction dsss as [|ds dsss IH]; intros csss Y Z; [cbn; lia|]. destruct (Z 0 ds eq_refl) as [css Hc]. destruct csss as [|c csss]; [discriminate|]. injection Hc as ->.
    cbn [List.concat]. rewrite !concat_app, !cnt_app, (Y 0 ds css eq_refl eq_refl). assert (Q : cnt (List.concat (List.concat dsss)) a <= cnt (List.concat (List.concat csss)) a); [|lia].
    apply IH; [intros k; apply (Y (S k))|intros k; apply (Z (S k))].
Qed.
