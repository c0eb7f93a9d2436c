(** Facts about the parser on the heap: it makes what Parse.v makes on trees, of cells of its own, each
    used once. *)
From Verif Require Import Text GoAst Ast Utf8 GoExpr Peg Grammar Parse Heap SpecHeap SpecFresh TreeFacts HeapFacts HeapParse.
From Coq Require Import NArith Arith Lia Bool.
Open Scope nat_scope.
Open Scope list_scope.
Notation view h := (@nth_error cell h).

(** ** Counting *)
Notation cnt := (count_occ Nat.eq_dec).
Definition le_cells (a b : list nat) : Prop := forall x, cnt a x <= cnt b x.
Definition within (lo hi : nat) (l : list nat) : Prop := forall x, cnt l x > 0 -> lo <= x < hi.
Lemma cnt_app a b x : cnt (a ++ b) x = cnt a x + cnt b x. Proof. apply count_occ_app. Qed.
Lemma cnt_cons a l x : cnt (a :: l) x = (if Nat.eq_dec a x then 1 else 0) + cnt l x.
Proof. cbn [count_occ]. destruct (Nat.eq_dec a x); reflexivity. Qed.
Lemma cnt_nil x : cnt [] x = 0. Proof. reflexivity. Qed.
Definition once (l : list nat) : Prop := forall x, cnt l x <= 1.
Lemma once_NoDup l : once l <-> NoDup l. Proof. symmetry. apply NoDup_count_occ. Qed.
Ltac cnts := repeat rewrite ?cnt_app, ?cnt_cons, ?cnt_nil in *.

(** ** The relation between dynamic values *)
Section Mono.
  Variables g g' : nat -> option cell.
  Hypothesis Sg : sub g g'.
  Lemma value_cells_mono : forall w c, value_cells g w c -> value_cells g' w c.
  Proof.
    fix IH 3. intros w c H. destruct H as [p c ws css E Sl F|p|x|]; try constructor.
    econstructor; [apply Sg; exact E|eapply slice_at_mono; eauto|]. clear E Sl. induction F as [|w cs ws css V F IHF]; constructor; [apply IH; exact V|exact IHF].
  Qed.
  Lemma rule_cells_mono w c : rule_cells g w c -> rule_cells g' w c.
  Proof. intros (p & x & m & r & -> & E & A & B & ->). exists p, x, m, r. repeat split; auto using value_cells_mono. Qed.
  Lemma file_cells_mono p c : file_cells g p c -> file_cells g' p c.
  Proof.
    intros (sl & ws & css & E & A & B & ->). exists sl, ws, css. split; [auto|]. split; [eapply slice_at_mono; eauto|]. split; [|reflexivity].
    clear A. induction B; constructor; auto using rule_cells_mono.
  Qed.
  Lemma file_at_mono p f : file_at g p f -> file_at g' p f.
  Proof. intros (sl & ws & E & A & B). exists sl, ws. split; [auto|]. split; [eapply slice_at_mono; eauto|eapply rules_mono; eauto]. Qed.
End Mono.

Fixpoint hv (g : nat -> option cell) (w : hval) (v : val) (c : list nat) {struct w} : Prop :=
  match w, v with
  | HVNil, VNil => c = []
  | HVBytes a, VBytes b => a = b /\ c = []
  | HVSlice l, VSlice l' =>
      (fix hvs (l : list hval) (l' : list val) (c : list nat) : Prop :=
         match l, l' with
         | [], [] => c = []
         | w :: l, v :: l' => exists c1 c2, hv g w v c1 /\ hvs l l' c2 /\ c = c1 ++ c2
         | _, _ => False
         end) l l' c
  | HVFile p, VFile f => file_at g p f /\ file_cells g p c
  | HVRule p, VRule r => rule_at g (WRule (Some p)) r /\ rule_cells g (WRule (Some p)) c
  | HVValue w, VValue v => value_at g w v /\ value_cells g w c
  | HVOpcode a, VOpcode b => a = b /\ c = []
  | HVParts p, VParts ps => g p = Some (CParts ps) /\ c = [p]
  | HVAlt a, VAlt b => a = b /\ c = []
  | HVType a, VType b => a = b /\ c = []
  | HVAuxInt p, VAuxInt e => g p = Some (CExpr e) /\ c = [p]
  | HVAux p, VAux e => g p = Some (CExpr e) /\ c = [p]
  | HVString a, VString b => a = b /\ c = []
  | _, _ => False
  end.
Fixpoint hvs (g : nat -> option cell) (l : list hval) (l' : list val) (c : list nat) : Prop :=
  match l, l' with
  | [], [] => c = []
  | w :: l, v :: l' => exists c1 c2, hv g w v c1 /\ hvs g l l' c2 /\ c = c1 ++ c2
  | _, _ => False
  end.
Lemma hv_slice g l l' c : hv g (HVSlice l) (VSlice l') c <-> hvs g l l' c.
Proof.
  revert l' c. induction l as [|w l IH]; intros [|v l'] c; cbn; try tauto.
  split; intros (c1 & c2 & A & B & C); exists c1, c2; repeat split; auto; apply IH; exact B.
Qed.
Lemma hv_slice_l g l v c : hv g (HVSlice l) v c -> exists l', v = VSlice l' /\ hvs g l l' c.
Proof. destruct v; try contradiction. intros H. exists l0. split; [reflexivity|]. apply hv_slice. exact H. Qed.
Lemma hval_ind' (P : hval -> Prop) (Hs : forall l, Forall P l -> P (HVSlice l)) (Ho : forall w, (forall l, w <> HVSlice l) -> P w) : forall w, P w.
Proof.
  fix IH 1. intros w. destruct w; try (apply Ho; discriminate). apply Hs. induction l; constructor; auto.
Qed.
Lemma hv_mono g g' w : sub g g' -> forall v c, hv g w v c -> hv g' w v c.
Proof.
  intros Sg. induction w as [l IH|w N] using hval_ind'; intros v c H.
  - apply hv_slice_l in H. destruct H as (l' & -> & H). apply hv_slice. revert l' c H. induction IH as [|w l Hw _ IHl]; intros [|v l'] c H; cbn in *; try contradiction; auto.
    destruct H as (c1 & c2 & A & B & C). exists c1, c2. auto.
  - destruct w, v; try contradiction; try (destruct (N _ eq_refl)); cbn in *; try exact H; destruct H as [A B]; (split; [|auto]);
      eauto using file_at_mono, file_cells_mono, rule_at_mono, rule_cells_mono, value_at_mono, value_cells_mono.
Qed.
Lemma hvs_mono g g' l : sub g g' -> forall l' c, hvs g l l' c -> hvs g' l l' c.
Proof. intros Sg l' c H. apply hv_slice. apply (hv_mono g g' _ Sg). apply hv_slice. exact H. Qed.
Lemma hvs_app g l1 l2 : forall l1' l2' c1 c2, hvs g l1 l1' c1 -> hvs g l2 l2' c2 -> hvs g (l1 ++ l2) (l1' ++ l2') (c1 ++ c2).
Proof.
  induction l1 as [|w l IH]; intros [|v l1'] l2' c1 c2 A B; cbn in *; try contradiction.
  - subst. exact B.
  - destruct A as (a & b & X & Y & ->). exists a, (b ++ c2). repeat split; auto. apply app_assoc_reverse.
Qed.
Lemma hvs_nth g i : forall l l' c, hvs g l l' c ->
  match nth_error l i, nth_error l' i with
  | Some w, Some v => exists d, hv g w v d /\ le_cells d c
  | None, None => True
  | _, _ => False
  end.
Proof.
  induction i as [|i IH]; intros [|w l] [|v l'] c H; cbn in *; try contradiction; auto.
  - destruct H as (c1 & c2 & A & B & ->). exists c1. split; [exact A|]. intros x. cnts. lia.
  - destruct H as (c1 & c2 & A & B & ->). specialize (IH l l' c2 B). destruct (nth_error l i), (nth_error l' i); auto.
    destruct IH as (d & X & Y). exists d. split; [exact X|]. intros x. specialize (Y x). cnts. lia.
Qed.

(** ** Labels *)
Fixpoint renv (g : nat -> option cell) (hen : henv) (en : env) (c : list nat) : Prop :=
  match hen, en with
  | [], [] => c = []
  | (k, w) :: hen, (k', v) :: en => k = k' /\ exists c1 c2, hv g w v c1 /\ renv g hen en c2 /\ c = c1 ++ c2
  | _, _ => False
  end.
Lemma renv_mono g g' hen : sub g g' -> forall en c, renv g hen en c -> renv g' hen en c.
Proof.
  intros Sg. induction hen as [|[k w] hen IH]; intros [|[k' v] en] c H; cbn in *; try contradiction; auto.
  destruct H as (-> & c1 & c2 & A & B & ->). split; [reflexivity|]. exists c1, c2. repeat split; eauto using hv_mono.
Qed.
Lemma renv_app g h1 h2 : forall e1 e2 c1 c2, renv g h1 e1 c1 -> renv g h2 e2 c2 -> renv g (h1 ++ h2) (e1 ++ e2) (c1 ++ c2).
Proof.
  induction h1 as [|[k w] h1 IH]; intros [|[k' v] e1] e2 c1 c2 A B; cbn in *; try contradiction.
  - subst. exact B.
  - destruct A as (-> & a & b & X & Y & ->). split; [reflexivity|]. exists a, (b ++ c2). repeat split; auto. apply app_assoc_reverse.
Qed.
Lemma text_eqb_spec' a b : reflect (a = b) (text_eqb a b).
Proof. destruct (text_eqb a b) eqn:E; constructor; [apply text_eqb_eq; exact E|]. intros X. apply text_eqb_eq in X. congruence. Qed.
Lemma renv_get g hen : forall en c, renv g hen en c ->
  exists f : text -> list nat, (forall l, hv g (henv_get hen l) (env_get en l) (f l)) /\
    forall ls, NoDup ls -> le_cells (List.concat (map f ls)) c.
Proof.
  induction hen as [|[k w] hen IH]; intros [|[k' v] en] c H; cbn in H; try contradiction.
  - exists (fun _ => []). split; [intros l; reflexivity|]. intros ls _ x. subst. induction ls; cbn; auto.
  - destruct H as (<- & c1 & c2 & A & B & ->). destruct (IH _ _ B) as (f & F & C).
    exists (fun l => if text_eqb k l then c1 else f l). split.
    + intros l. cbn. destruct (text_eqb k l); [exact A|apply F].
    + assert (X : forall ls, ~ In k ls -> map (fun l => if text_eqb k l then c1 else f l) ls = map f ls).
      { intros ls N. apply map_ext_in. intros l Hl. destruct (text_eqb_spec' k l); [subst; contradiction|reflexivity]. }
      intros ls Nd x. destruct (in_dec (list_eq_dec Ascii.ascii_dec) k ls) as [Hk|Hk].
      * apply in_split in Hk. destruct Hk as (l1 & l2 & ->). apply NoDup_remove in Nd. destruct Nd as [Nd Nk].
        rewrite map_app, concat_app. cbn [map List.concat]. rewrite (X l1), (X l2) by (intros Y; apply Nk; apply in_or_app; auto).
        destruct (text_eqb_spec' k k); [|congruence]. specialize (C (l1 ++ l2) Nd x). rewrite map_app, concat_app in C. cnts. lia.
      * rewrite X by exact Hk. specialize (C ls Nd x). cnts. lia.
Qed.

(** ** Actions *)
(** Started in [b], having come to [h]: the outcome, and what the new value is made of: cells of the labels'
    values [ec], and new ones. *)
Definition made (b h : heap) (ec c : list nat) : Prop :=
  exists d, (forall x, cnt c x <= cnt d x + cnt ec x) /\ once d /\ within (List.length b) (List.length h) d.
Definition act_ok (b : heap) (ec : list nat) (m : heap * res hval) (r : ares) : Prop :=
  exists h' o, m = (h', o) /\ keeps b h' /\
    match o, r with
    | Ok w, AOk v => exists c, hv (view h') w v c /\ made b h' ec c
    | Err e, AErr e' VNil => e = e'
    | Panic x, APanic x' => x = x'
    | _, _ => False
    end.
Lemma made_le b h ec c : le_cells c ec -> made b h ec c.
Proof. intros L. exists []. repeat split; cnts; try lia; try (apply L); intros x; cnts; lia. Qed.
Lemma act_ret b ec h w v c : keeps b h -> hv (view h) w v c -> made b h ec c -> act_ok b ec (run (ret w) h) (AOk v).
Proof. intros K V Md. exists h, (Ok w). split; [reflexivity|]. split; [exact K|]. exists c. auto. Qed.
Lemma act_panic b ec h s : keeps b h -> act_ok b ec (run (hassert s) h) (assert_panic s).
Proof. intros K. exists h. eexists. split; [reflexivity|]. split; [exact K|reflexivity]. Qed.
Lemma act_elem b ec h w v i c k k' : keeps b h -> hv (view b) w v c ->
  (forall x y d, hv (view b) x y d -> le_cells d c -> act_ok b ec (run (k x) h) (k' y)) ->
  act_ok b ec (run (helem w i k) h) (elem v i k').
Proof.
  intros K V H. destruct w, v; cbn in V; try contradiction; try (apply act_panic; exact K).
  cbn [helem elem]. apply (hv_slice (view b) l l0) in V. pose proof (hvs_nth _ i _ _ _ V) as X.
  destruct (nth_error l i), (nth_error l0 i); try contradiction.
  - destruct X as (d & A & B). apply (H _ _ d); assumption.
  - exists h. eexists. split; [reflexivity|]. split; [exact K|reflexivity].
Qed.
Lemma alloc_run c h : run (alloc c) h = (h ++ [c], Ok (List.length h)). Proof. reflexivity. Qed.
Lemma new_view (c : cell) (h : heap) : view (h ++ [c]) (List.length h) = Some c.
Proof. rewrite nth_error_app2 by lia. rewrite Nat.sub_diag. reflexivity. Qed.
Lemma keeps_new b h (c : cell) : keeps b h -> keeps b (h ++ [c]).
Proof. intros K. eapply keeps_trans; [exact K|]. exists [c]. reflexivity. Qed.
(** A value with a cell of its own at the end of memory, on top of cells [d] and of what is left. *)
Lemma made_new b h (x : cell) ec d c : keeps b h -> once d -> within (List.length b) (List.length h) d -> le_cells c ec ->
  made b (h ++ [x]) ec (List.length h :: d ++ c).
Proof.
  intros K O W L. exists (List.length h :: d). split; [|split].
  - intros y. specialize (L y). cnts. lia.
  - intros y. cnts. specialize (O y). specialize (W y). destruct (Nat.eq_dec (List.length h) y); [|lia]. subst. lia.
  - intros y. cnts. specialize (W y). rewrite app_length. cbn [List.length]. pose proof (keeps_len _ _ K). destruct (Nat.eq_dec (List.length h) y); [|lia]. subst. lia.
Qed.

Section Actions.
  Variable gp : text -> res gexpr.
  Variable spare : nat -> nat -> nat.

  Lemma append_mine b h sl ws xs : keeps b h -> own h sl ws -> mine b sl ->
    exists h' sl', run (append spare sl xs) h = (h', Ok sl') /\ keeps b h' /\ own h' sl' (ws ++ xs) /\ mine b sl'.
  Proof.
    intros K O Mi. assert (Hd : hid (view b) sl) by (destruct Mi as [Z|Z]; [left; exact Z|right; apply nth_error_None; exact Z]).
    destruct (append_ok spare (view b) h sl ws xs (keeps_sub _ _ K) O Hd) as (h' & sl' & E & _ & O' & _ & _).
    destruct (safe_append spare b sl xs Mi h K) as [K' Mi']. rewrite E in K', Mi'. exists h', sl'. repeat split; auto; apply O'.
  Qed.
  Lemma own_cap h sl ws : own h sl ws -> sl_cap sl = 0 -> sl_len sl = 0.
  Proof. intros (_ & L & [[_ ->]|(rest & _ & C)]) Z; [exact L|]. rewrite app_length in C. lia. Qed.
  Lemma slice_cells_in b h sl ws : own h sl ws -> mine b sl -> once (slice_cells sl) /\ within (List.length b) (List.length h) (slice_cells sl).
  Proof.
    intros O Mi. unfold slice_cells. pose proof (own_cap _ _ _ O) as Oc. destruct (sl_cap sl + sl_len sl) eqn:E; [split; intros x; cnts; lia|].
    pose proof (own_bound _ _ _ O) as B. destruct B as [B|B]; [lia|]. destruct Mi as [Mi|Mi]; [lia|].
    split; intros x; cnts; destruct (Nat.eq_dec (sl_arr sl) x); lia.
  Qed.
  Lemma own_new h (c : cell) sl ws : own h sl ws -> own (h ++ [c]) sl ws.
  Proof. apply own_mono. intros x. apply keeps_sub. exists [c]. reflexivity. Qed.
  Lemma Forall2_mono {A B} (P Q : A -> B -> Prop) l m : (forall a b, P a b -> Q a b) -> Forall2 P l m -> Forall2 Q l m.
  Proof. intros H F. induction F; constructor; auto. Qed.

  Lemma file_ok b ec : forall is is' c h rules ws acc css, hvs (view b) is is' c -> keeps b h -> own h rules ws -> mine b rules ->
    Forall2 (rule_at (view b)) ws acc -> Forall2 (rule_cells (view b)) ws css -> (forall x, cnt (List.concat css) x + cnt c x <= cnt ec x) ->
    act_ok b ec (run (hon_file spare is rules) h) (on_file is' acc).
  Proof.
    induction is as [|w is IH]; intros [|v is'] c h rules ws acc css Hv K O Mi Fa Fc L; cbn in Hv; try contradiction.
    - cbn [hon_file on_file]. rewrite run_bind, alloc_run. destruct (slice_cells_in b h rules ws O Mi) as [O1 W1].
      pose proof (keeps_sub _ _ (keeps_new b h (CFile rules) K)) as Sb.
      eapply act_ret with (c := List.length h :: slice_cells rules ++ List.concat css); [apply keeps_new; exact K| |].
      + cbn [hv]. split.
        * exists rules, ws. split; [apply new_view|]. split; [apply own_slice, own_new; exact O|]. cbn [f_rules]. eapply rules_mono; [exact Sb|exact Fa].
        * exists rules, ws, css. split; [apply new_view|]. split; [apply own_slice, own_new; exact O|]. split; [|reflexivity].
          eapply Forall2_mono; [|exact Fc]. intros a d. apply rule_cells_mono. exact Sb.
      + apply made_new; auto. intros x. specialize (L x). cnts. lia.
    - destruct Hv as (c1 & c2 & A & B & ->). cbn [hon_file on_file]. apply act_elem with (c := c1); auto.
      intros x y d Vd Ld. destruct x, y; cbn in Vd; try contradiction; try (apply act_panic; exact K).
      destruct Vd as [Ra Rc]. destruct (append_mine b h rules ws [WRule (Some p)] K O Mi) as (h' & sl' & E & K' & O' & Mi').
      rewrite run_bind, E. apply (IH _ c2 _ _ (ws ++ [WRule (Some p)]) _ (css ++ [d])); auto.
      + apply Forall2_app; auto.
      + apply Forall2_app; auto.
      + intros z. specialize (L z). specialize (Ld z). rewrite concat_app. cbn [List.concat]. cnts. lia.
  Qed.

  Lemma rule_ok b ec h wm wc wb wr m cond block r c1 c2 c3 c4 : keeps b h ->
    hv (view b) wm m c1 -> hv (view b) wc cond c2 -> hv (view b) wb block c3 -> hv (view b) wr r c4 ->
    le_cells (c1 ++ c2 ++ c3 ++ c4) ec -> act_ok b ec (run (hon_rule wm wc wb wr) h) (on_rule m cond block r).
  Proof.
    intros K Vm Vc Vb Vr L.
    destruct wm, m; cbn in Vm; try contradiction; try (apply act_panic; exact K).
    destruct wr, r; cbn in Vr; try contradiction; try (apply act_panic; exact K).
    destruct Vm as [Am Cm], Vr as [Ar Cr]. unfold hon_rule, on_rule.
    assert (Last : forall p o bl, expr_at (view b) p o -> le_cells (c1 ++ ptr_cells p ++ c4) ec ->
      act_ok b ec (run (do a <- alloc (CRule {| h_match := w; h_cond := p; h_block := bl; h_result := w0 |}); ret (HVRule a)) h)
        (AOk (VRule (mkRule v o bl v0)))).
    { intros p o bl Ep Lp. rewrite run_bind, alloc_run. set (cl := CRule _). pose proof (keeps_sub _ _ (keeps_new b h cl K)) as Sb.
      eapply act_ret with (c := List.length h :: [] ++ (c1 ++ ptr_cells p ++ c4)); [apply keeps_new; exact K| |].
      - cbn [hv]. split.
        + eexists _, _. split; [reflexivity|]. split; [apply new_view|]. cbn. split; [eapply value_at_mono; eauto|]. split; [eapply expr_at_mono; eauto|]. split; [reflexivity|eapply value_at_mono; eauto].
        + eexists _, _, c1, c4. split; [reflexivity|]. split; [apply new_view|]. cbn. split; [eapply value_cells_mono; eauto|]. split; [eapply value_cells_mono; eauto|reflexivity].
      - apply made_new; auto; intros x; cnts; lia. }
    assert (Block : forall p o, expr_at (view b) p o -> le_cells (c1 ++ ptr_cells p ++ c4) ec ->
      act_ok b ec (run (match wb with
              | HVNil => do a <- alloc (CRule {| h_match := w; h_cond := p; h_block := []; h_result := w0 |}); ret (HVRule a)
              | HVString bl => do a <- alloc (CRule {| h_match := w; h_cond := p; h_block := bl; h_result := w0 |}); ret (HVRule a)
              | _ => hassert "string" end) h)
        (match block with
            | VNil => AOk (VRule (mkRule v o [] v0))
            | VString bl => AOk (VRule (mkRule v o bl v0))
            | _ => assert_panic "string" end)).
    { intros p o Ep Lp. destruct wb, block; cbn in Vb; try contradiction; try (apply act_panic; exact K); [apply Last; auto|].
      destruct Vb as [-> _]. apply Last; auto. }
    assert (Cond : act_ok b ec (run (helem wc 3 (fun c => match c with HVValue (WExpr p) =>
               match wb with
              | HVNil => do a <- alloc (CRule {| h_match := w; h_cond := p; h_block := []; h_result := w0 |}); ret (HVRule a)
              | HVString bl => do a <- alloc (CRule {| h_match := w; h_cond := p; h_block := bl; h_result := w0 |}); ret (HVRule a)
              | _ => hassert "string" end | _ => hassert "*ast.Expr" end)) h)
        (elem cond 3 (fun c => match c with VValue (EVal e) =>
            match block with
            | VNil => AOk (VRule (mkRule v (Some e) [] v0))
            | VString bl => AOk (VRule (mkRule v (Some e) bl v0))
            | _ => assert_panic "string" end | _ => assert_panic "*ast.Expr" end))).
    { apply act_elem with (c := c2); auto. intros x y d Vd Ld. destruct x, y; cbn in Vd; try contradiction; try (apply act_panic; exact K).
      destruct Vd as [Va Vcl]. inversion Va; subst; try (apply act_panic; exact K). inversion Vcl; subst.
      apply Block; [exact H|]. intros z. specialize (L z). specialize (Ld z). cnts. lia. }
    destruct wc, cond; cbn in Vc; try contradiction; try exact Cond.
    apply (Block None None); [exact I|]. intros z. specialize (L z). cbn [ptr_cells]. cnts. lia.
  Qed.

  Lemma alt_ok b ec h : keeps b h -> forall is is' c acc, hvs (view b) is is' c -> act_ok b ec (run (hon_alt is acc) h) (on_alt is' acc).
  Proof.
    intros K. induction is as [|w is IH]; intros [|v is'] c acc Hv; cbn in Hv; try contradiction; cbn [hon_alt on_alt].
    - apply act_ret with (c := []); [exact K|cbn; auto|apply made_le; intros x; cnts; lia].
    - destruct Hv as (c1 & c2 & A & B & ->). apply act_elem with (c := c1); auto. intros x y d Vd _.
      destruct x, y; cbn in Vd; try contradiction; try (apply act_panic; exact K). destruct Vd as [-> _]. eapply IH. exact B.
  Qed.
  Lemma op_ok b ec h : keeps b h -> forall is is' c acc, hvs (view b) is is' c -> act_ok b ec (run (hon_op is acc) h) (on_op is' acc).
  Proof.
    intros K. assert (P : forall ps, act_ok b ec (run (do a <- alloc (CParts ps); ret (HVParts a)) h) (AOk (VParts ps))).
    { intros ps. rewrite run_bind, alloc_run. apply act_ret with (c := List.length h :: [] ++ []); [apply keeps_new; exact K| |].
      - cbn [hv]. split; [apply new_view|reflexivity].
      - apply made_new; auto; intros x; cnts; lia. }
    induction is as [|w is IH]; intros [|v is'] c acc Hv; cbn in Hv; try contradiction; cbn [hon_op on_op].
    - destruct acc as [|[] []]; try apply P. apply act_ret with (c := []); [exact K|cbn; auto|apply made_le; intros x; cnts; lia].
    - destruct Hv as (c1 & c2 & A & B & ->). destruct w, v; cbn in A; try contradiction; try (apply act_panic; exact K); destruct A as [-> _]; eapply IH; exact B.
  Qed.

  (** The expression that onSExpr1 is filling in. *)
  Record part (b h : heap) (ec : list nat) (hs : hsexpr) (s : sexpr) (ws : list word) (css : list (list nat)) (rest : list nat) : Prop := {
    pa_binding : h_binding hs = s_binding s; pa_op : op_at (view b) (h_op hs) (s_op s); pa_type : h_type hs = s_type s;
    pa_auxint : expr_at (view b) (h_auxint hs) (s_auxint s); pa_aux : expr_at (view b) (h_aux hs) (s_aux s);
    pa_own : own h (h_args hs) ws; pa_mine : mine b (h_args hs); pa_args : Forall2 (value_at (view b)) ws (s_args s);
    pa_cells : Forall2 (value_cells (view b)) ws css;
    pa_le : forall x, cnt (op_cells (h_op hs) ++ ptr_cells (h_auxint hs) ++ ptr_cells (h_aux hs) ++ List.concat css) x + cnt rest x <= cnt ec x }.
  Lemma operands_ok b ec hk k :
    (forall h hs s ws css, keeps b h -> part b h ec hs s ws css [] -> act_ok b ec (run (hk hs) h) (k s)) ->
    forall is is' c h hs s ws css, keeps b h -> hvs (view b) is is' c -> part b h ec hs s ws css c ->
    act_ok b ec (run (hon_operands spare is hs hk) h) (on_operands is' s k).
  Proof.
    intros Hk. induction is as [|w is IH]; intros [|v is'] c h hs s ws css K Hv P; cbn in Hv; try contradiction; cbn [hon_operands on_operands].
    - subst. apply (Hk h hs s ws css); assumption.
    - destruct Hv as (c1 & c2 & A & B & ->). apply act_elem with (c := c1); auto. intros x y d Vd Ld. destruct P as [P1 P2 P3 P4 P5 P6 P7 P8 P9 P10].
      assert (Lz : forall z, cnt d z <= cnt c1 z) by exact Ld.
      destruct x, y; cbn in Vd; try contradiction;
        try (exists h; eexists; split; [reflexivity|]; split; [exact K|reflexivity]).
      + destruct Vd as [Va Vc]. destruct (append_mine b h (h_args hs) ws [w0] K P6 P7) as (h' & sl' & E & K' & O' & Mi'). rewrite run_bind, E.
        apply (IH _ c2 _ _ _ (ws ++ [w0]) (css ++ [d])); auto. constructor; cbn; auto; try (apply Forall2_app; auto).
        intros z. specialize (P10 z). specialize (Lz z). rewrite concat_app. cbn [List.concat]. cnts. lia.
      + destruct Vd as [-> _]. apply (IH _ c2 _ _ _ ws css); auto. constructor; cbn; auto. intros z. specialize (P10 z). cnts. lia.
      + destruct Vd as [Ve ->]. apply (IH _ c2 _ _ _ ws css); auto. constructor; cbn; auto. intros z. specialize (P10 z). specialize (Lz z). cnts. lia.
      + destruct Vd as [Ve ->]. apply (IH _ c2 _ _ _ ws css); auto. constructor; cbn; auto. intros z. specialize (P10 z). specialize (Lz z). cnts. lia.
  Qed.
  Lemma once_nil : once []. Proof. intros x. cnts. lia. Qed.

  Lemma sexpr_ok b ec h wb wo wp we wt binding op operands ellipsis trailing c1 c2 c3 c4 c5 : keeps b h ->
    hv (view b) wb binding c1 -> hv (view b) wo op c2 -> hv (view b) wp operands c3 -> hv (view b) we ellipsis c4 -> hv (view b) wt trailing c5 ->
    le_cells (c2 ++ c3) ec -> act_ok b ec (run (hon_sexpr spare wb wo wp we wt) h) (on_sexpr_action binding op operands ellipsis trailing).
  Proof.
    intros K Vb Vo Vp Ve Vt L. unfold hon_sexpr, on_sexpr_action.
    assert (E1 : match we with HVNil => false | _ => true end = match ellipsis with VNil => false | _ => true end) by (destruct we, ellipsis; cbn in Ve; try contradiction; reflexivity).
    assert (E2 : match wt with HVNil => false | _ => true end = match trailing with VNil => false | _ => true end) by (destruct wt, trailing; cbn in Vt; try contradiction; reflexivity).
    rewrite E1, E2. clear E1 E2 Ve Vt.
    set (el := match ellipsis with VNil => false | _ => true end). set (tr := match trailing with VNil => false | _ => true end).
    assert (Rest : forall ho o bi, op_at (view b) ho o -> le_cells (op_cells ho) c2 -> act_ok b ec
      (run (match wp with
         | HVSlice is => hon_operands spare is {| h_binding := bi; h_op := ho; h_type := []; h_auxint := None; h_aux := None; h_args := nil_slice; h_ellipsis := false; h_trailing := false |}
              (fun s => do a <- alloc (CSExpr {| h_binding := h_binding s; h_op := h_op s; h_type := h_type s; h_auxint := h_auxint s;
                                 h_aux := h_aux s; h_args := h_args s; h_ellipsis := el; h_trailing := tr |});
                        ret (HVValue (WSExpr (Some a))))
         | _ => hassert "[]interface {}" end) h)
      (match operands with
       | VSlice is => on_operands is (mkSExpr bi o [] None None [] false false)
            (fun s => AOk (VValue (SExp (mkSExpr (s_binding s) (s_op s) (s_type s) (s_auxint s) (s_aux s) (s_args s) el tr))))
       | _ => assert_panic "[]interface {}" end)).
    { intros ho o bi Ho Lo. destruct wp, operands; cbn in Vp; try contradiction; try (apply act_panic; exact K).
      apply (hv_slice (view b) l l0) in Vp. apply (operands_ok b ec) with (c := c3) (ws := []) (css := []); auto.
      - clear h K. intros h hs s ws css K P. rewrite run_bind, alloc_run. set (cl := CSExpr _). pose proof (keeps_sub _ _ (keeps_new b h cl K)) as Sb.
        destruct P as [P1 P2 P3 P4 P5 P6 P7 P8 P9 P10]. destruct (slice_cells_in b h _ _ P6 P7) as [O1 W1].
        eapply act_ret with (c := List.length h :: op_cells (h_op hs) ++ ptr_cells (h_auxint hs) ++ ptr_cells (h_aux hs) ++ slice_cells (h_args hs) ++ List.concat css); [apply keeps_new; exact K| |].
        + cbn [hv]. split.
          * eapply at_sexpr with (c := {| h_binding := h_binding hs; h_op := h_op hs; h_type := h_type hs; h_auxint := h_auxint hs; h_aux := h_aux hs; h_args := h_args hs; h_ellipsis := el; h_trailing := tr |}); [apply new_view|..]; cbn; auto.
            -- eapply op_at_mono; eauto. -- eapply expr_at_mono; eauto. -- eapply expr_at_mono; eauto.
            -- apply own_slice, own_new. exact P6. -- eapply values_mono; eauto.
          * refine (vc_sexpr _ (List.length h) {| h_binding := h_binding hs; h_op := h_op hs; h_type := h_type hs; h_auxint := h_auxint hs; h_aux := h_aux hs; h_args := h_args hs; h_ellipsis := el; h_trailing := tr |} ws css _ _ _); [apply new_view| |].
            -- apply own_slice, own_new. exact P6.
            -- eapply Forall2_mono; [|exact P9]. intros a d. apply value_cells_mono. exact Sb.
        + destruct (made_new b h cl ec (slice_cells (h_args hs)) (op_cells (h_op hs) ++ ptr_cells (h_auxint hs) ++ ptr_cells (h_aux hs) ++ List.concat css) K O1 W1) as (d & X & Y & Z).
          { intros z. specialize (P10 z). cnts. lia. }
          exists d. split; [|auto]. intros z. specialize (X z). cnts. lia.
      - constructor; cbn [h_binding h_op h_type h_auxint h_aux h_args s_binding s_op s_type s_auxint s_aux s_args]; try exact I; try reflexivity; try constructor; auto.
        intros z. specialize (L z). specialize (Lo z). cbn [ptr_cells List.concat]. cnts. lia. }
    assert (Go : forall ho o, op_at (view b) ho o -> le_cells (op_cells ho) c2 -> act_ok b ec
      (run (match wb with
         | HVNil => match wp with
           | HVSlice is => hon_operands spare is {| h_binding := []; h_op := ho; h_type := []; h_auxint := None; h_aux := None; h_args := nil_slice; h_ellipsis := false; h_trailing := false |}
                (fun s => do a <- alloc (CSExpr {| h_binding := h_binding s; h_op := h_op s; h_type := h_type s; h_auxint := h_auxint s;
                                   h_aux := h_aux s; h_args := h_args s; h_ellipsis := el; h_trailing := tr |});
                          ret (HVValue (WSExpr (Some a))))
           | _ => hassert "[]interface {}" end
         | _ => helem wb 0 (fun v => match v with HVValue (WVar x) => match wp with
           | HVSlice is => hon_operands spare is {| h_binding := x; h_op := ho; h_type := []; h_auxint := None; h_aux := None; h_args := nil_slice; h_ellipsis := false; h_trailing := false |}
                (fun s => do a <- alloc (CSExpr {| h_binding := h_binding s; h_op := h_op s; h_type := h_type s; h_auxint := h_auxint s;
                                   h_aux := h_aux s; h_args := h_args s; h_ellipsis := el; h_trailing := tr |});
                          ret (HVValue (WSExpr (Some a))))
           | _ => hassert "[]interface {}" end | _ => hassert "ast.Variable" end) end) h)
      (match binding with
       | VNil => match operands with
         | VSlice is => on_operands is (mkSExpr [] o [] None None [] false false)
              (fun s => AOk (VValue (SExp (mkSExpr (s_binding s) (s_op s) (s_type s) (s_auxint s) (s_aux s) (s_args s) el tr))))
         | _ => assert_panic "[]interface {}" end
       | _ => elem binding 0 (fun v => match v with VValue (Var x) => match operands with
         | VSlice is => on_operands is (mkSExpr x o [] None None [] false false)
              (fun s => AOk (VValue (SExp (mkSExpr (s_binding s) (s_op s) (s_type s) (s_auxint s) (s_aux s) (s_args s) el tr))))
         | _ => assert_panic "[]interface {}" end | _ => assert_panic "ast.Variable" end) end)).
    { intros ho o Ho Lo. destruct wb, binding; cbn in Vb; try contradiction; try (apply act_panic; exact K); [apply Rest; auto|].
      apply act_elem with (c := c1); auto. intros x y d Vd _. destruct x, y; cbn in Vd; try contradiction; try (apply act_panic; exact K).
      destruct Vd as [Va _]. inversion Va; subst; try (apply act_panic; exact K). apply Rest; auto. }
    destruct wo, op; cbn in Vo; try contradiction; try (apply act_panic; exact K); destruct Vo as [V1 V2].
    - apply (Go (HOpcode c) (Opcode c0)); [exact V1|intros x; cbn; lia].
    - apply (Go (HParts a) (OpcodeParts ps)); [exact V1|intros x; subst; cbn; lia].
  Qed.

  Lemma goexpr_ok b ec h t hk k : keeps b h -> (forall g p e, g p = Some (CExpr e) -> hv g (hk p) (k e) [p]) ->
    act_ok b ec (run (hwith_goexpr gp t hk) h) (with_goexpr gp t k).
  Proof.
    intros K H. unfold hwith_goexpr, with_goexpr. destruct (goexpr_parse gp t) as [e|e|e].
    - rewrite run_bind, alloc_run. apply act_ret with (c := List.length h :: [] ++ []); [apply keeps_new; exact K|apply H, new_view|].
      apply made_new; auto; intros x; cnts; lia.
    - exists h. eexists. split; [reflexivity|]. split; [exact K|reflexivity].
    - exists h. eexists. split; [reflexivity|]. split; [exact K|reflexivity].
  Qed.

  Lemma action_ok h hen en ec a t : renv (view h) hen en ec -> act_ok h ec (run (hrun_action gp spare a t hen) h) (run_action gp a t en).
  Proof.
    intros R. destruct (renv_get _ _ _ _ R) as (f & F & C). pose proof (keeps_refl h) as K.
    assert (Simple : forall w v, hv (view h) w v [] -> act_ok h ec (run (ret w) h) (AOk v)).
    { intros w v V. apply act_ret with (c := []); [exact K|exact V|apply made_le; intros x; cnts; lia]. }
    destruct a; cbn [hrun_action run_action]; try (apply Simple; cbn; auto; fail); try (apply Simple; cbn; split; constructor; fail).
    - pose proof (F (str "rs")) as V. destruct (henv_get hen _), (env_get en _); cbn in V; try contradiction; try (apply act_panic; exact K).
      apply (hv_slice (view h) l l0) in V. apply (file_ok h ec) with (c := f (str "rs")) (ws := []) (css := []); auto.
      + apply own_nil. + left; reflexivity.
      + intros x. specialize (C [str "rs"] ltac:(repeat constructor; cbn; tauto) x). cbn [map List.concat] in *. cnts. lia.
    - apply goexpr_ok; [exact K|]. intros g p e E. cbn. split; [constructor; exact E|apply (vc_expr g (Some p))].
    - eapply rule_ok; try apply F; [exact K|]. specialize (C [str "m"; str "cond"; str "block"; str "r"]). cbn [map List.concat] in C. rewrite app_nil_r in C. apply C.
      repeat constructor; cbn; intuition discriminate.
    - pose proof (F (str "first")) as V. destruct (henv_get hen (str "first")), (env_get en (str "first")); cbn in V; try contradiction; try (apply act_panic; exact K). destruct V as [-> _].
      pose proof (F (str "rest")) as V. destruct (henv_get hen (str "rest")), (env_get en (str "rest")); cbn in V; try contradiction; try (apply act_panic; exact K).
      apply (hv_slice (view h) l l0) in V. eapply alt_ok; eauto.
    - pose proof (F (str "parts")) as V. destruct (henv_get hen (str "parts")), (env_get en (str "parts")); cbn in V; try contradiction; try (apply act_panic; exact K).
      apply (hv_slice (view h) l l0) in V. eapply op_ok; eauto.
    - eapply sexpr_ok; try apply F; [exact K|]. specialize (C [str "op"; str "operands"]). cbn [map List.concat] in C. rewrite app_nil_r in C. apply C.
      repeat constructor; cbn; intuition discriminate.
    - apply goexpr_ok; [exact K|]. intros g p e E. cbn. auto.
    - apply goexpr_ok; [exact K|]. intros g p e E. cbn. auto.
    - apply goexpr_ok; [exact K|]. intros g p e E. cbn. split; [constructor; exact E|apply (vc_expr g (Some p))].
  Qed.
End Actions.

(** ** The engine *)
Lemma catch_run {A} (m : M A) : forall h, run (catch m) h = (fst (run m h), Ok (snd (run m h))).
Proof. induction m as [r|p k IH|c k IH|p c k IH]; intros h; cbn [catch run fst snd]; auto. Qed.
Lemma once_join lo mid hi a b : once a -> once b -> within lo mid a -> within mid hi b -> once (a ++ b).
Proof. intros A B C D x. cnts. specialize (A x). specialize (B x). specialize (C x). specialize (D x). lia. Qed.
Lemma within_join lo mid hi a b : lo <= mid -> mid <= hi -> within lo mid a -> within mid hi b -> within lo hi (a ++ b).
Proof. intros L1 L2 C D x. cnts. specialize (C x). specialize (D x). lia. Qed.
Lemma within_weak lo lo' hi hi' a : lo' <= lo -> hi <= hi' -> within lo hi a -> within lo' hi' a.
Proof. intros L1 L2 C x H. specialize (C x H). lia. Qed.
Lemma within_nil lo hi : within lo hi []. Proof. intros x. cnts. lia. Qed.

Section Engine.
  Context {A : Type}.
  Variable ra : A -> text -> env -> ares.
  Variable hra : A -> text -> henv -> M hval.
  Variable grammar : text -> option (pexpr A).
  Hypothesis Hact : forall a t h hen en ec, renv (view h) hen en ec -> act_ok h ec (run (hra a t hen) h) (ra a t en).

  (** An expression whose value does not use the labels around it. *)
  Fixpoint bare (e : pexpr A) : bool :=
    match e with PAction _ _ => false | PSeq es => forallb bare es | _ => true end.
  (** One that adds no labels. *)
  Fixpoint quiet (e : pexpr A) : bool :=
    match e with PLabel _ _ => false | PAction _ e => quiet e | PSeq es => forallb quiet es | _ => true end.
  Fixpoint tidy (e : pexpr A) : bool :=
    match e with
    | PAction _ e | PLabel _ e | PNot e | POpt e | PStar e | PPlus e => tidy e
    | PChoice es => forallb tidy es
    | PSeq es => forallb tidy es && (forallb bare es || forallb quiet es)
    | _ => true
    end.
  Hypothesis Hgr : forall name body, grammar name = Some body -> tidy body = true.

  Definition val_ok (h h' : heap) (w : hval) (v : val) : Prop :=
    exists c, hv (view h') w v c /\ once c /\ within (List.length h) (List.length h') c.
  Definition env_ok (h h' : heap) (hen : henv) (en : env) : Prop :=
    exists c, renv (view h') hen en c /\ once c /\ within (List.length h) (List.length h') c.
  Definition post (h : heap) (hen : henv) (en : env) (q : bool) (m : heap * res hpres) (r : pres) : Prop :=
    exists h' o, m = (h', Ok o) /\ keeps h h' /\
      match o, r with
      | HOutOfFuel, OutOfFuel => True
      | HPPanic x rl s, PPanic x' rl' s' => x = x' /\ rl = rl' /\ s = s'
      | HPRes w ok hen' s, PRes v ok' en' s' => ok = ok' /\ s = s' /\ val_ok h h' w v /\
          exists hn n, hen' = hn ++ hen /\ en' = n ++ en /\ env_ok h h' hn n /\ (q = true -> hn = [] /\ n = [])
      | _, _ => False
      end.
  Lemma val_mono h h1 h2 w v : keeps h h1 -> keeps h1 h2 -> val_ok h h1 w v -> val_ok h h2 w v.
  Proof.
    intros K1 K2 (c & V & O & W). exists c. split; [eapply hv_mono; [apply keeps_sub; exact K2|exact V]|]. split; [exact O|].
    eapply within_weak; [| |exact W]; [lia|apply keeps_len; exact K2].
  Qed.
  Lemma env_mono h h1 h2 w v : keeps h h1 -> keeps h1 h2 -> env_ok h h1 w v -> env_ok h h2 w v.
  Proof.
    intros K1 K2 (c & V & O & W). exists c. split; [eapply renv_mono; [apply keeps_sub; exact K2|exact V]|]. split; [exact O|].
    eapply within_weak; [| |exact W]; [lia|apply keeps_len; exact K2].
  Qed.
  Lemma env_nil h h' : env_ok h h' [] []. Proof. exists []. split; [reflexivity|]. split; [apply once_nil|apply within_nil]. Qed.
  Lemma val_nil h h' : val_ok h h' HVNil VNil. Proof. exists []. split; [reflexivity|]. split; [apply once_nil|apply within_nil]. Qed.
  Lemma val_matched h h' v : (v = VNil \/ exists b, v = VBytes b) -> val_ok h h' (matched v) v.
  Proof. intros [->|[b ->]]; exists []; (split; [cbn; auto|]); (split; [apply once_nil|apply within_nil]). Qed.

  (** The end of a step. *)
  Lemma post_done h h' hen en q w v ok s : keeps h h' -> val_ok h h' w v -> post h hen en q (run (ret (HPRes w ok hen s)) h') (PRes v ok en s).
  Proof.
    intros K V. exists h'. eexists. split; [reflexivity|]. split; [exact K|]. split; [reflexivity|]. split; [reflexivity|]. split; [exact V|].
    exists [], []. split; [reflexivity|]. split; [reflexivity|]. split; [apply env_nil|auto].
  Qed.
  Lemma post_oof h h' hen en q : keeps h h' -> post h hen en q (run (ret HOutOfFuel) h') OutOfFuel.
  Proof. intros K. exists h'. eexists. split; [reflexivity|]. split; [exact K|exact I]. Qed.
  Lemma post_panic h h' hen en q x rl s : keeps h h' -> post h hen en q (run (ret (HPPanic x rl s)) h') (PPanic x rl s).
  Proof. intros K. exists h'. eexists. split; [reflexivity|]. split; [exact K|auto]. Qed.
  (** A step that goes on after another one. *)
  Lemma post_bind h0 h hen0 en0 q0 hen en q m r (k : hpres -> M hpres) (k' : pres -> pres) : keeps h0 h -> post h hen en q (run m h) r ->
    (forall h', keeps h h' -> post h0 hen0 en0 q0 (run (k HOutOfFuel) h') (k' OutOfFuel)) ->
    (forall h' x rl s, keeps h h' -> post h0 hen0 en0 q0 (run (k (HPPanic x rl s)) h') (k' (PPanic x rl s))) ->
    (forall h' w v ok s hn n, keeps h h' -> val_ok h h' w v -> env_ok h h' hn n -> (q = true -> hn = [] /\ n = []) ->
       post h0 hen0 en0 q0 (run (k (HPRes w ok (hn ++ hen) s)) h') (k' (PRes v ok (n ++ en) s))) ->
    post h0 hen0 en0 q0 (run (mbind m k) h) (k' r).
  Proof.
    intros K0 (h' & o & E & K & P) H1 H2 H3. rewrite run_bind, E. destruct o as [|x rl s|w ok hen' s], r as [|x' rl' s'|v ok' en' s']; try contradiction.
    - apply H1. exact K. - destruct P as (-> & -> & ->). apply H2. exact K.
    - destruct P as (-> & -> & V & hn & n & -> & -> & En & Q). apply H3; auto.
  Qed.

  Definition pre (hen : henv) (en : env) (e : pexpr A) : Prop := (hen = [] /\ en = []) \/ bare e = true.

  Lemma seq_ok (hp : pexpr A -> henv -> pstate -> M hpres) (p : pexpr A -> env -> pstate -> pres) start q :
    forall es hvals vals h0 h hen en hn n s,
    (forall e hen en s h, In e es -> pre hen en e -> post h hen en (quiet e) (run (hp e hen s) h) (p e en s)) ->
    keeps h0 h -> val_ok h0 h (HVSlice hvals) (VSlice vals) -> env_ok h0 h hn n ->
    (forallb bare es = true \/ (forallb quiet es = true /\ hn = [] /\ n = [] /\ hen = [] /\ en = [])) ->
    (q = true -> forallb quiet es = true /\ hn = [] /\ n = []) ->
    post h0 hen en q (run (hseq_loop hp start es hvals (hn ++ hen) s) h) (seq_loop p start es vals (n ++ en) s).
  Proof.
    induction es as [|e es IH]; intros hvals vals h0 h hen en hn n s Hp K V En Hb Hq; cbn [hseq_loop seq_loop].
    - exists h. eexists. split; [reflexivity|]. split; [exact K|]. split; [reflexivity|]. split; [reflexivity|]. split; [exact V|]. exists hn, n.
      split; [reflexivity|]. split; [reflexivity|]. split; [exact En|]. intros Q. apply Hq in Q. tauto.
    - assert (Pe : pre (hn ++ hen) (n ++ en) e).
      { destruct Hb as [Hb|(_ & -> & -> & -> & ->)]; [right|left; auto]. cbn in Hb. apply andb_true_iff in Hb. tauto. }
      pose proof (Hp e (hn ++ hen) (n ++ en) s h (or_introl eq_refl) Pe) as (h' & o & E & K' & P). rewrite run_bind, E. clear E.
      pose proof (keeps_trans _ _ _ K K') as K2.
      destruct o as [|x rl s'|w ok hen' s'], (p e (n ++ en) s) as [|x' rl' s''|v ok' en' s'']; try contradiction.
      + apply post_oof. exact K2.
      + destruct P as (-> & -> & ->). apply post_panic. exact K2.
      + destruct P as (<- & <- & V' & hn' & n' & -> & -> & En' & Q').
        assert (En2 : env_ok h0 h' (hn' ++ hn) (n' ++ n)).
        { destruct En as (c0 & R0 & O0 & W0). destruct En' as (c2 & R2 & O2 & W2).
          exists (c2 ++ c0). split; [apply renv_app; [exact R2|eapply renv_mono; [apply keeps_sub; exact K'|exact R0]]|].
          assert (X : once (c0 ++ c2)) by (eapply once_join; eauto). pose proof (keeps_len _ _ K). pose proof (keeps_len _ _ K').
          assert (Y : within (List.length h0) (List.length h') (c0 ++ c2)) by (eapply within_join; [| |exact W0|exact W2]; lia).
          split; intros x; [specialize (X x)|specialize (Y x)]; cnts; lia. }
        rewrite !app_assoc. destruct ok.
        * apply IH; auto.
          -- intros e' hen' en' s2 h2 Hin. apply Hp. right. exact Hin.
          -- destruct V as (c1 & V1 & O1 & W1). destruct V' as (c2 & V2 & O2 & W2). exists (c1 ++ c2). split; [|split].
             ++ apply hv_slice. apply hvs_app; [eapply hvs_mono; [apply keeps_sub; exact K'|apply hv_slice; exact V1]|]. exists c2, []. rewrite app_nil_r. cbn. auto.
             ++ eapply once_join; eauto.
             ++ eapply within_join; [| |exact W1|exact W2]; apply keeps_len; assumption.
          -- destruct Hb as [Hb|(Q & -> & -> & -> & ->)].
             ++ left. cbn in Hb. apply andb_true_iff in Hb. tauto.
             ++ right. cbn in Q. apply andb_true_iff in Q. destruct Q as [Qe Qs]. destruct (Q' Qe) as [-> ->]. auto.
          -- intros Q. destruct (Hq Q) as (Qs & -> & ->). cbn in Qs. apply andb_true_iff in Qs. destruct Qs as [Qe Qs]. destruct (Q' Qe) as [-> ->]. auto.
        * exists h'. eexists. split; [reflexivity|]. split; [exact K2|]. split; [reflexivity|]. split; [reflexivity|]. split; [apply val_nil|]. exists (hn' ++ hn), (n' ++ n).
          split; [reflexivity|]. split; [reflexivity|]. split; [exact En2|]. intros Q. destruct (Hq Q) as (Qs & -> & ->). cbn in Qs. apply andb_true_iff in Qs. destruct Qs as [Qe _]. destruct (Q' Qe) as [-> ->]. auto.
  Qed.

  Lemma choice_ok (hp : pexpr A -> henv -> pstate -> M hpres) (p : pexpr A -> env -> pstate -> pres) hen en q :
    forall es h0 h s,
    (forall e s h, In e es -> post h [] [] (quiet e) (run (hp e [] s) h) (p e [] s)) -> keeps h0 h ->
    post h0 hen en q (run (hchoice_loop hp es hen s) h) (choice_loop p es en s).
  Proof.
    induction es as [|e es IH]; intros h0 h s Hp K; cbn [hchoice_loop choice_loop].
    - apply post_done; [exact K|apply val_nil].
    - pose proof (Hp e s h (or_introl eq_refl)) as (h' & o & E & K' & P). rewrite run_bind, E. clear E. pose proof (keeps_trans _ _ _ K K') as K2.
      destruct o as [|x rl s'|w ok hen' s'], (p e [] s) as [|x' rl' s''|v ok' en' s'']; try contradiction.
      + apply post_oof. exact K2.
      + destruct P as (-> & -> & ->). apply post_panic. exact K2.
      + destruct P as (<- & <- & V & _). destruct ok.
        * apply post_done; [exact K2|]. destruct V as (c & A1 & A2 & A3). exists c. split; [exact A1|]. split; [exact A2|]. eapply within_weak; [| |exact A3]; [apply keeps_len; exact K|lia].
        * apply IH; [|exact K2]. intros e' s2 h2 Hin. apply Hp. right. exact Hin.
  Qed.

  Lemma h_star_eq n rule e hen s : hparse_expr hra grammar (S n) rule (PStar e) hen s =
    (do r <- hstar_loop hra grammar n rule e [] s; match r with HPRes v ok _ s' => ret (HPRes v ok hen s') | r => ret r end).
  Proof. reflexivity. Qed.
  Lemma star_eq n rule e en s : parse_expr ra grammar (S n) rule (PStar e) en s =
    match star_loop ra grammar n rule e [] s with PRes v ok _ s' => PRes v ok en s' | r => r end.
  Proof. reflexivity. Qed.
  Lemma h_plus_eq n rule e hen s : hparse_expr hra grammar (S n) rule (PPlus e) hen s =
    (do r <- hstar_loop hra grammar n rule e [] s;
     match r with HPRes (HVSlice []) _ _ s' => ret (HPRes HVNil false hen s') | HPRes v ok _ s' => ret (HPRes v ok hen s') | r => ret r end).
  Proof. reflexivity. Qed.
  Lemma plus_eq n rule e en s : parse_expr ra grammar (S n) rule (PPlus e) en s =
    match star_loop ra grammar n rule e [] s with
    | PRes (VSlice []) _ _ s' => PRes VNil false en s' | PRes v ok _ s' => PRes v ok en s' | r => r end.
  Proof. reflexivity. Qed.
  Lemma h_loop_eq n rule e vals s : hstar_loop hra grammar (S n) rule e vals s =
    (do r <- hparse_expr hra grammar n rule e [] s;
     match r with HPRes v true _ s' => hstar_loop hra grammar n rule e (vals ++ [v]) s' | HPRes _ false _ s' => ret (HPRes (HVSlice vals) true [] s') | r => ret r end).
  Proof. reflexivity. Qed.
  Lemma loop_eq n rule e vals s : star_loop ra grammar (S n) rule e vals s =
    match parse_expr ra grammar n rule e [] s with
    | PRes v true _ s' => star_loop ra grammar n rule e (vals ++ [v]) s' | PRes _ false _ s' => PRes (VSlice vals) true [] s' | r => r end.
  Proof. reflexivity. Qed.
  Lemma parse_ok n : forall rule e hen en s h, tidy e = true -> pre hen en e ->
    post h hen en (quiet e) (run (hparse_expr hra grammar n rule e hen s) h) (parse_expr ra grammar n rule e en s)
  with star_ok n : forall rule e hvals vals s h0 h, tidy e = true -> keeps h0 h -> val_ok h0 h (HVSlice hvals) (VSlice vals) ->
    post h0 [] [] true (run (hstar_loop hra grammar n rule e hvals s) h) (star_loop ra grammar n rule e vals s).
  Proof.
    - destruct n as [|n]; intros rule e hen en s h T Pr; [apply post_oof, keeps_refl|].
      destruct e as [a e|es|l e|es|e|e|e|e|name|v want|v cs rs inv|]; try rewrite h_star_eq, star_eq; try rewrite h_plus_eq, plus_eq; cbn [hparse_expr parse_expr quiet].
      + destruct Pr as [[-> ->]|Pr]; [|discriminate]. cbn in T.
        pose proof (parse_ok n rule e [] [] s h T (or_introl (conj eq_refl eq_refl))) as (h' & o & E & K & P). rewrite run_bind, E. clear E.
        destruct o as [|x rl s'|w ok hen' s'], (parse_expr ra grammar n rule e [] s) as [|x' rl' s''|v ok' en' s'']; try contradiction.
        * apply post_oof. exact K.
        * destruct P as (-> & -> & ->). apply post_panic. exact K.
        * destruct P as (<- & <- & V & hn & nn & -> & -> & En & Q). rewrite !app_nil_r in *. destruct ok.
          -- destruct En as (ec & R & O & W). rewrite run_bind, catch_run.
             destruct (Hact a (sliceFrom (pt s) s') h' hn nn ec R) as (h2 & o & E & K2 & P). rewrite E. cbn [fst snd]. pose proof (keeps_trans _ _ _ K K2) as K3.
             assert (En : env_ok h h2 hn nn) by (eapply env_mono; [exact K|exact K2|]; exists ec; auto).
             destruct o as [w'|x|x], (ra a (sliceFrom (pt s) s') nn) as [v'|x' v'|x']; try contradiction.
             ++ destruct P as (c & Vc & d & D1 & D2 & D3). exists h2. eexists. split; [reflexivity|]. split; [exact K3|]. split; [reflexivity|]. split; [reflexivity|]. split.
                ** exists c. split; [exact Vc|]. pose proof (keeps_len _ _ K) as L1. pose proof (keeps_len _ _ K2) as L2.
                   split; intros x; specialize (D1 x); specialize (D2 x); specialize (D3 x); specialize (O x); specialize (W x); lia.
                ** exists hn, nn. rewrite !app_nil_r. auto.
             ++ destruct v'; try contradiction. subst x'. exists h2. eexists. split; [reflexivity|]. split; [exact K3|]. split; [reflexivity|]. split; [reflexivity|]. split; [apply val_nil|].
                exists hn, nn. rewrite !app_nil_r. auto.
             ++ subst x'. apply post_panic. exact K3.
          -- exists h'. eexists. split; [reflexivity|]. split; [exact K|]. split; [reflexivity|]. split; [reflexivity|]. split; [exact V|]. exists hn, nn. rewrite !app_nil_r. auto.
      + cbn in T. apply choice_ok; [|apply keeps_refl]. intros e s' h' Hin. apply parse_ok; [|left; auto]. rewrite forallb_forall in T. apply T. exact Hin.
      + cbn in T. pose proof (parse_ok n rule e [] [] s h T (or_introl (conj eq_refl eq_refl))) as (h' & o & E & K & P). rewrite run_bind, E. clear E.
        destruct o as [|x rl s'|w ok hen' s'], (parse_expr ra grammar n rule e [] s) as [|x' rl' s''|v ok' en' s'']; try contradiction.
        * apply post_oof. exact K.
        * destruct P as (-> & -> & ->). apply post_panic. exact K.
        * destruct P as (<- & <- & V & _). destruct ok; [|apply post_done; assumption].
          exists h'. eexists. split; [reflexivity|]. split; [exact K|]. split; [reflexivity|]. split; [reflexivity|]. split; [exact V|]. exists [(l, w)], [(l, v)].
          split; [reflexivity|]. split; [reflexivity|]. split; [|discriminate]. destruct V as (c & V & O & W). exists c. split; [|auto]. cbn. split; [reflexivity|]. exists c, []. rewrite app_nil_r. auto.
      + cbn in T. apply andb_true_iff in T. destruct T as [T1 T2].
        apply (seq_ok _ _ _ _ es [] [] h h hen en [] []).
        * intros e hen' en' s' h' Hin P. apply parse_ok; [|exact P]. rewrite forallb_forall in T1. apply T1. exact Hin.
        * apply keeps_refl.
        * exists []. split; [reflexivity|]. split; [apply once_nil|apply within_nil].
        * apply env_nil.
        * destruct Pr as [[-> ->]|Pr]; [|left; exact Pr]. apply orb_true_iff in T2. destruct T2 as [T2|T2]; [left; exact T2|right; auto].
        * auto.
      + cbn in T. pose proof (parse_ok n rule e [] [] (set_invert (negb (fail_invert s)) s) h T (or_introl (conj eq_refl eq_refl))) as (h' & o & E & K & P). rewrite run_bind, E. clear E.
        destruct o as [|x rl s'|w ok hen' s'], (parse_expr ra grammar n rule e [] (set_invert (negb (fail_invert s)) s)) as [|x' rl' s''|v ok' en' s'']; try contradiction.
        * apply post_oof. exact K.
        * destruct P as (-> & -> & ->). apply post_panic. exact K.
        * destruct P as (<- & <- & V & _). apply post_done; [exact K|apply val_nil].
      + cbn in T. pose proof (parse_ok n rule e [] [] s h T (or_introl (conj eq_refl eq_refl))) as (h' & o & E & K & P). rewrite run_bind, E. clear E.
        destruct o as [|x rl s'|w ok hen' s'], (parse_expr ra grammar n rule e [] s) as [|x' rl' s''|v ok' en' s'']; try contradiction.
        * apply post_oof. exact K.
        * destruct P as (-> & -> & ->). apply post_panic. exact K.
        * destruct P as (<- & <- & V & _). apply post_done; [exact K|exact V].
      + cbn in T. assert (V0 : val_ok h h (HVSlice []) (VSlice [])) by (exists []; split; [reflexivity|split; [apply once_nil|apply within_nil]]).
        pose proof (star_ok n rule e [] [] s h h T (keeps_refl h) V0) as (h' & o & E & K & P). rewrite run_bind, E. clear E.
        destruct o as [|x rl s'|w ok hen' s'], (star_loop ra grammar n rule e [] s) as [|x' rl' s''|v ok' en' s'']; try contradiction.
        * apply post_oof. exact K.
        * destruct P as (-> & -> & ->). apply post_panic. exact K.
        * destruct P as (<- & <- & V & _). apply post_done; [exact K|exact V].
      + cbn in T. assert (V0 : val_ok h h (HVSlice []) (VSlice [])) by (exists []; split; [reflexivity|split; [apply once_nil|apply within_nil]]).
        pose proof (star_ok n rule e [] [] s h h T (keeps_refl h) V0) as (h' & o & E & K & P). rewrite run_bind, E. clear E.
        destruct o as [|x rl s'|w ok hen' s'], (star_loop ra grammar n rule e [] s) as [|x' rl' s''|v ok' en' s'']; try contradiction.
        * apply post_oof. exact K.
        * destruct P as (-> & -> & ->). apply post_panic. exact K.
        * destruct P as (<- & <- & V & _). pose proof V as (c & Vc & _).
          destruct w as [| |[|w0 l]| | | | | | | | | |], v as [| |[|v0 l']| | | | | | | | | |]; cbn in Vc; try contradiction; try (apply post_done; [exact K|exact V]).
      + destruct (grammar name) as [body|] eqn:G; [|apply post_done; [apply keeps_refl|apply val_nil]].
        pose proof (parse_ok n name body [] [] s h (Hgr _ _ G) (or_introl (conj eq_refl eq_refl))) as (h' & o & E & K & P). rewrite run_bind, E. clear E.
        destruct o as [|x rl s'|w ok hen' s'], (parse_expr ra grammar n name body [] s) as [|x' rl' s''|v ok' en' s'']; try contradiction.
        * apply post_oof. exact K.
        * destruct P as (-> & -> & ->). apply post_panic. exact K.
        * destruct P as (<- & <- & V & _). apply post_done; [exact K|exact V].
      + destruct (parse_lit rule v want s) as [[x ok] s'] eqn:E. apply post_done; [apply keeps_refl|]. apply val_matched.
        unfold parse_lit in E. destruct (lit_loop rule v s) as [[|] s2]; inversion E; eauto.
      + destruct (parse_class rule v cs rs inv s) as [[x ok] s'] eqn:E. apply post_done; [apply keeps_refl|]. apply val_matched.
        unfold parse_class in E. destruct (at_eof (pt s)); [inversion E; eauto|]. destruct (xorb _ inv); inversion E; eauto.
      + destruct (parse_any rule s) as [[x ok] s'] eqn:E. apply post_done; [apply keeps_refl|]. apply val_matched.
        unfold parse_any in E. destruct (at_eof (pt s)); inversion E; eauto.
    - destruct n as [|n]; intros rule e hvals vals s h0 h T K V; [apply post_oof; exact K|]. rewrite h_loop_eq, loop_eq.
      pose proof (parse_ok n rule e [] [] s h T (or_introl (conj eq_refl eq_refl))) as (h' & o & E & K' & P). rewrite run_bind, E. clear E.
      pose proof (keeps_trans _ _ _ K K') as K2.
      destruct o as [|x rl s'|w ok hen' s'], (parse_expr ra grammar n rule e [] s) as [|x' rl' s''|v ok' en' s'']; try contradiction.
      + apply post_oof. exact K2.
      + destruct P as (-> & -> & ->). apply post_panic. exact K2.
      + destruct P as (<- & <- & V' & _). destruct ok.
        * apply star_ok; [exact T|exact K2|]. destruct V as (c1 & V1 & O1 & W1). destruct V' as (c2 & V2 & O2 & W2). exists (c1 ++ c2). split; [|split].
          -- apply hv_slice. apply hvs_app; [eapply hvs_mono; [apply keeps_sub; exact K'|apply hv_slice; exact V1]|]. exists c2, []. rewrite app_nil_r. cbn. auto.
          -- eapply once_join; eauto.
          -- eapply within_join; [| |exact W1|exact W2]; apply keeps_len; assumption.
        * apply post_done; [exact K2|exact (val_mono _ _ _ _ _ K K' V)].
  Qed.
End Engine.

(** ** The grammar of this package *)
Lemma grammar_tidy name body : the_grammar name = Some body -> tidy body = true.
Proof.
  unfold the_grammar. intros H. destruct (find _ grammar_rules) as [[k b]|] eqn:F; [|discriminate]. apply find_some in F. destruct F as [F _].
  cbn in H. inversion H; subst. assert (X : forallb (fun p => tidy (snd p)) grammar_rules = true) by (vm_compute; reflexivity).
  rewrite forallb_forall in X. exact (X _ F).
Qed.

Lemma parse_fresh gp spare filename data h : exists h' r, run (h_Parse gp spare filename data) h = (h', r) /\ keeps h h' /\
  match Parse gp filename data with
  | Ok f => exists p c, r = Ok p /\ file_at (view h') p f /\ file_cells (view h') p c /\ NoDup c /\ Forall (fun a => List.length h <= a < List.length h') c
  | Err e => r = Err e
  | Panic m => r = Panic m
  end.
Proof.
  unfold h_Parse, Parse, parse_fuel.
  pose proof (parse_ok (run_action gp) (hrun_action gp spare) the_grammar (fun a t h hen en ec R => action_ok gp spare h hen en ec a t R) grammar_tidy
    (parse_bound data) (str "File") g_File [] [] (read None (init_state data)) h eq_refl (or_introl (conj eq_refl eq_refl))) as (h' & o & E & K & P).
  rewrite run_bind, E. clear E. destruct o as [|x rl s'|w ok hen' s'], (parse_expr _ _ _ _ g_File [] _) as [|x' rl' s''|v ok' en' s'']; try contradiction.
  - exists h'. eexists. split; [reflexivity|]. auto.
  - destruct P as (-> & -> & ->). unfold h_cast, cast. destruct (errlist_err _ _); exists h'; eexists; (split; [reflexivity|]); auto.
  - destruct P as (<- & <- & V & _). destruct ok.
    + unfold h_cast, cast. destruct (errlist_err filename (errs s')); [exists h'; eexists; split; [reflexivity|]; auto|].
      destruct V as (c & V & O & W). exists h'. destruct w, v; cbn in V; try contradiction; eexists; (split; [reflexivity|]); (split; [exact K|]); try reflexivity.
      destruct V as [V1 V2]. exists p, c. repeat split; auto; [apply once_NoDup; exact O|]. apply Forall_forall. intros a Ha.
      specialize (W a). apply (count_occ_In Nat.eq_dec) in Ha. apply W in Ha. lia.
    + destruct (errs s'); unfold h_cast, cast; destruct (errlist_err _ _); exists h'; eexists; (split; [reflexivity|]); auto.
Qed.
