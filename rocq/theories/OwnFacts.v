(** What ExpandAlternates makes of memory. *)
From Verif Require Import Text GoAst Ast Expand Heap SpecExpand SpecHeap SpecFresh SpecOwn TreeFacts ExpandFacts HeapFacts HeapParseFacts.
From Coq Require Import Arith Lia Bool.
Open Scope nat_scope.
Open Scope list_scope.
Notation view h := (@nth_error cell h).

Scheme copied_ind2 := Induction for copied Sort Prop with all_copied_ind2 := Induction for all_copied Sort Prop.
Combined Scheme copied_mutind from copied_ind2, all_copied_ind2.

Lemma copied_mono g g' old : sub g g' ->
  (forall v w w' cs, copied g old v w w' cs -> copied g' old v w w' cs) /\
  (forall vs ws ws' cs, all_copied g old vs ws ws' cs -> all_copied g' old vs ws ws' cs).
Proof.
  intros S. apply copied_mutind; intros; try (constructor; auto; fail).
  eapply renewed; eauto using slice_at_mono.
Qed.

Lemma Forall2_cons_inv' {A B} (P : A -> B -> Prop) a b l m : Forall2 P (a :: l) (b :: m) -> P a b /\ Forall2 P l m.
Proof. intros F. inversion F; auto. Qed.

(** ** Counting *)
Lemma cnt_concat_app {A} (f k : A -> list nat) l x : cnt (List.concat (map (fun i => f i ++ k i) l)) x = cnt (List.concat (map f l)) x + cnt (List.concat (map k l)) x.
Proof. induction l as [|a l IH]; cbn [map List.concat]; [reflexivity|]. rewrite !cnt_app, IH. lia. Qed.
Lemma concat_map_nil {A} (l : list A) : List.concat (map (fun _ => @nil nat) l) = [].
Proof. induction l; auto. Qed.

(** The [i]-th of the alternatives. *)
Definition picked (i : nat) (css : list (list nat)) : list nat := nth (idx i (List.length css)) css [].
Lemma picked_all css : List.length css <> 1 -> List.concat (map (fun i => picked i css) (seq 0 (List.length css))) = List.concat css.
Proof.
  intros N. f_equal. unfold picked, idx. destruct (Nat.eqb_spec (List.length css) 1); [contradiction|]. clear.
  induction css as [|c css IH]; [reflexivity|]. cbn [List.length seq map nth]. f_equal. rewrite <- seq_shift, map_map. exact IH.
Qed.

(** What expanding an argument made. *)
Definition alts_own (old : nat) g (lo hi : nat) (t : value) (w : word) (sl : slice) (css : list (list nat)) : Prop :=
  exists ws, slice_at g sl ws /\ Forall2 (copied g old t w) ws css /\ once (List.concat css) /\ within lo hi (List.concat css) /\
    (List.length css = 1 -> css = [[]] /\ ws = [w]).
Lemma alts_own_mono old g g' lo hi t w sl css : sub g g' -> alts_own old g lo hi t w sl css -> alts_own old g' lo hi t w sl css.
Proof.
  intros S (ws & A & B & C). exists ws. split; [eapply slice_at_mono; eauto|]. split; [|exact C].
  eapply Forall2_mono; [|exact B]. intros a b. apply (proj1 (copied_mono g g' old S)).
Qed.
Lemma alts_own_len old g lo hi t w sl css : alts_own old g lo hi t w sl css -> sl_len sl = List.length css.
Proof. intros (ws & [L _] & F & _). rewrite L. exact (Forall2_length _ _ _ F). Qed.

Inductive args_own (old : nat) g : nat -> nat -> list value -> list word -> list slice -> list (list (list nat)) -> Prop :=
| ao_nil lo hi : lo <= hi -> args_own old g lo hi [] [] [] []
| ao_cons lo mid hi t ts w ws sl sls css cs : lo <= mid -> alts_own old g lo mid t w sl css -> args_own old g mid hi ts ws sls cs ->
    args_own old g lo hi (t :: ts) (w :: ws) (sl :: sls) (css :: cs).
Lemma args_own_mono old g g' lo hi ts ws sls cs : sub g g' -> args_own old g lo hi ts ws sls cs -> args_own old g' lo hi ts ws sls cs.
Proof. intros S F. induction F; econstructor; eauto using alts_own_mono. Qed.
Lemma args_own_le old g lo hi ts ws sls cs : args_own old g lo hi ts ws sls cs -> lo <= hi.
Proof. intros F. induction F; lia. Qed.

(** The cells of the [i]-th alternative of all arguments, and those of the first [n] alternatives together. *)
Definition picks (cs : list (list (list nat))) (i : nat) : list nat := List.concat (map (picked i) cs).
Lemma picks_once old g lo hi ts ws sls cs n : args_own old g lo hi ts ws sls cs -> Forall (fun css => List.length css = 1 \/ List.length css = n) cs ->
  n <> 1 -> once (List.concat (map (picks cs) (seq 0 n))) /\ within lo hi (List.concat (map (picks cs) (seq 0 n))).
Proof.
  intros F Fn N1. induction F as [lo hi L|lo mid hi t ts w ws sl sls css cs L A F IH].
  - unfold picks. cbn [map List.concat]. rewrite concat_map_nil. split; [apply once_nil|apply within_nil].
  - apply Forall_cons_iff in Fn. destruct Fn as [Hn Fn]. specialize (IH Fn). destruct IH as [I1 I2].
    destruct A as (aw & _ & _ & O & W & One). pose proof (args_own_le _ _ _ _ _ _ _ _ F) as Lm.
    assert (X : forall x, cnt (List.concat (map (picks (css :: cs)) (seq 0 n))) x = cnt (List.concat (map (fun i => picked i css) (seq 0 n))) x + cnt (List.concat (map (picks cs) (seq 0 n))) x).
    { intros x. rewrite <- cnt_concat_app. reflexivity. }
    assert (Y : forall x, cnt (List.concat (map (fun i => picked i css) (seq 0 n))) x <= cnt (List.concat css) x).
    { intros x. destruct Hn as [Hn|Hn]; [|rewrite <- Hn in N1 |- *; rewrite picked_all by exact N1; lia].
      destruct (One Hn) as [-> _]. unfold picked. cbn [List.length idx Nat.eqb nth]. rewrite concat_map_nil. cbn. lia. }
    split; intros x.
    + rewrite X. specialize (Y x). specialize (O x). specialize (I1 x). specialize (W x). specialize (I2 x).
      destruct (Nat.eq_dec (cnt (List.concat (map (picks cs) (seq 0 n))) x) 0); [lia|]. destruct (Nat.eq_dec (cnt (List.concat css) x) 0); lia.
    + intros P. rewrite X in P. specialize (Y x). specialize (W x). specialize (I2 x). lia.
Qed.

Section Own.
  Variable spare : nat -> nat -> nat.
  Variable old : nat.

  Lemma at_pick g h lo hi t w sl css i : sub g (view h) -> alts_own old g lo hi t w sl css -> (List.length css = 1 \/ i < List.length css) ->
    exists w', at_ sl (idx i (sl_len sl)) h = (h, Ok w') /\ copied g old t w w' (picked i css).
  Proof.
    intros S A Hi. rewrite (alts_own_len _ _ _ _ _ _ _ _ A). destruct A as (ws & Sl & F & _ & _ & _). pose proof (Forall2_length _ _ _ F) as L.
    assert (Hj : idx i (List.length css) < List.length css) by (unfold idx; destruct (Nat.eqb_spec (List.length css) 1); lia).
    unfold picked. set (j := idx i (List.length css)) in *. clearbody j.
    assert (X : exists w', nth_error ws j = Some w' /\ copied g old t w w' (nth j css [])).
    { clear -F Hj. revert j Hj. induction F; intros [|j] Hj; cbn in *; try lia; [eauto|]. apply IHF. lia. }
    destruct X as (w' & E & C). exists w'. split; [eapply at_ok; eauto|exact C].
  Qed.

  Lemma pick_own g lo hi ts ws sls cs i : args_own old g lo hi ts ws sls cs -> Forall (fun css => List.length css = 1 \/ i < List.length css) cs ->
    forall k h args pre, sub g k -> sub k (view h) -> own h args pre -> hid k args ->
    exists h' args' ws', pick_args spare sls i args h = (h', Ok args') /\ sub k (view h') /\ own h' args' (pre ++ ws') /\ hid k args' /\
      List.length h <= List.length h' /\ all_copied g old ts ws ws' (picks cs i).
  Proof.
    intros F. induction F as [lo hi L|lo mid hi t ts w ws sl sls css cs L A F IH]; intros Fi k h args pre Sg Sk O Hd.
    - cbn [pick_args]. exists h, args, []. rewrite app_nil_r. split; [reflexivity|]. split; [exact Sk|]. split; [exact O|]. split; [exact Hd|]. split; [lia|constructor].
    - apply Forall_cons_iff in Fi. destruct Fi as [Hi Fi]. cbn [pick_args].
      destruct (at_pick g h lo mid t w sl css i (sub_trans _ _ _ Sg Sk) A Hi) as (w' & E & C). rewrite (mbind_ok _ _ _ _ _ E).
      destruct (append_ok spare k h args pre [w'] Sk O Hd) as (h1 & a1 & E1 & S1 & O1 & H1 & L1). rewrite (mbind_ok _ _ _ _ _ E1).
      destruct (IH Fi k h1 a1 (pre ++ [w']) Sg S1 O1 H1) as (h2 & a2 & ws' & E2 & S2 & O2 & H2 & L2 & C2).
      exists h2, a2, (w' :: ws'). rewrite <- app_assoc in O2. split; [exact E2|]. split; [exact S2|]. split; [exact O2|]. split; [exact H2|]. split; [lia|].
      unfold picks. cbn [map List.concat]. constructor; assumption.
  Qed.

  (** The tops of the new S-expressions: the cell and the array. *)
  Lemma alternates_own p c s opcodes sls lo hi ws cs n : forall k i g h vs done,
    old <= List.length h -> hi <= List.length h ->
    sub g (view h) -> own h vs done -> hid g vs -> g p = Some (CSExpr c) -> value_groups (SExp s) <> [] -> slice_at g (h_args c) ws ->
    args_own old g lo hi (s_args s) ws sls cs -> Forall (fun css => List.length css = 1 \/ List.length css = n) cs ->
    (List.length opcodes = 1 \/ List.length opcodes = n) -> i + k = n ->
    exists h' vs' ws' g' tops', alternates spare p opcodes sls k i vs h = (h', Ok vs') /\ sub g g' /\ sub g' (view h') /\ own h' vs' (done ++ ws') /\
      hid g' vs' /\ blind (List.length h) g g' /\ List.length h <= List.length h' /\
      Forall2 (copied g' old (SExp s) (WSExpr (Some p))) ws' (map (fun x => fst x ++ snd x) (combine tops' (map (picks cs) (seq i k)))) /\
      List.length tops' = k /\ once (List.concat tops') /\ within (List.length h) (List.length h') (List.concat tops').
  Proof.
    induction k as [|k IH]; intros i g h vs done Lo Lhi S O Hd Gp Vg Ha F Fc Fo Ik.
    - cbn [alternates]. exists h, vs, [], g, []. rewrite app_nil_r. do 10 (split; [first [reflexivity|apply sub_refl|apply blind_refl|assumption|apply once_nil|apply within_nil|lia|constructor]|]). apply within_nil.
    - cbn [alternates seq]. assert (G1 : get_sexpr p h = (h, Ok c)) by (unfold get_sexpr; rewrite run_bind, get_run; rewrite (S _ _ Gp); reflexivity).
      rewrite (mbind_ok _ _ _ _ _ G1). rewrite (mbind_ok (alloc (CSExpr c)) _ h _ _ eq_refl). set (h1 := h ++ [CSExpr c]). set (v := List.length h).
      assert (Lv : v < List.length h1) by (unfold h1, v; rewrite app_length; cbn; lia).
      assert (gv : g v = None) by (eapply sub_fresh; eauto; unfold v; lia).
      destruct (index_ok opcodes (idx i (List.length opcodes))) as [oc Ei]; [unfold idx; destruct (Nat.eqb_spec (List.length opcodes) 1); lia|].
      rewrite Ei, (mbind_ok (lift (Ok oc)) _ h1 h1 oc eq_refl).
      assert (G2 : get_sexpr v h1 = (h1, Ok c)).
      { unfold get_sexpr. rewrite run_bind, get_run. unfold h1, v. rewrite nth_error_app2, Nat.sub_diag by auto. reflexivity. }
      rewrite (mbind_ok _ _ _ _ _ G2), (mbind_ok _ _ _ _ _ (store_ok _ _ _ Lv)). set (h2 := put v (CSExpr (set_op c (HOpcode oc))) h1).
      assert (L2 : List.length h2 = List.length h1) by (apply put_length; exact Lv).
      assert (V2 : forall q, nth_error h2 q = if q =? v then Some (CSExpr (set_op c (HOpcode oc))) else nth_error h1 q) by (intros q; apply put_spec; exact Lv).
      assert (S2 : sub g (view h2)) by (apply sub_put; auto; apply sub_alloc; exact S).
      assert (Fi : Forall (fun css => List.length css = 1 \/ i < List.length css) cs) by (eapply Forall_impl; [|exact Fc]; cbn; intros; lia).
      destruct (pick_own g lo hi (s_args s) ws sls cs i F Fi (view h2) h2 nil_slice [] S2 (sub_refl _) (own_nil _) (hid_nil _)) as (h3 & args & aw & P & S3 & O3 & H3 & L3' & C3).
      rewrite (mbind_ok _ _ _ _ _ P).
      assert (V3 : nth_error h3 v = Some (CSExpr (set_op c (HOpcode oc)))) by (apply S3; rewrite V2, Nat.eqb_refl; reflexivity).
      assert (L3 : v < List.length h3) by (apply nth_error_Some; congruence).
      assert (G3 : get_sexpr v h3 = (h3, Ok (set_op c (HOpcode oc)))) by (unfold get_sexpr; rewrite run_bind, get_run; rewrite V3; reflexivity).
      rewrite (mbind_ok _ _ _ _ _ G3), (mbind_ok _ _ _ _ _ (store_ok _ _ _ L3)).
      set (c4 := set_args (set_op c (HOpcode oc)) args). set (h4 := put v (CSExpr c4) h3).
      assert (V4 : forall q, nth_error h4 q = if q =? v then Some (CSExpr c4) else nth_error h3 q) by (intros q; apply put_spec; exact L3).
      assert (L4 : List.length h4 = List.length h3) by (apply put_length; exact L3).
      set (g4 := fun q => if q <? v then g q else nth_error h4 q).
      assert (S4 : sub g4 (view h4)).
      { intros q d. unfold g4. destruct (Nat.ltb_spec q v) as [Lq|]; [|auto]. intros Hq. rewrite V4. destruct (Nat.eqb_spec q v); [lia|]. apply S3, S2. exact Hq. }
      assert (B4 : blind (List.length h) g g4) by (intros q Lq Nq; unfold g4; rewrite (proj2 (Nat.ltb_lt _ _)) by exact Lq; exact Nq).
      assert (Sg : sub g g4).
      { intros q d Hq. unfold g4. destruct (Nat.ltb_spec q v) as [Lq|Lq]; [exact Hq|]. assert (g q = None) by (exact (sub_fresh _ _ _ S Lq)). congruence. }
      assert (Bv : sl_cap vs = 0 \/ sl_arr vs < v) by (exact (own_bound _ _ _ O)).
      assert (Hd4 : hid g4 vs).
      { destruct Bv as [Z|Z]; [left; exact Z|]. destruct Hd as [Hd|Hd]; [left; exact Hd|right]. unfold g4. rewrite (proj2 (Nat.ltb_lt _ _)) by exact Z. exact Hd. }
      assert (O4 : own h4 vs done).
      { destruct Bv as [Z|Z].
        - destruct O as (Oa & Ob & [Oc|(rest & Ea & Ca)]); (split; [exact Oa|]); (split; [exact Ob|]); left; [exact Oc|]. split; [exact Z|]. rewrite Z in Ca. destruct done; [reflexivity|discriminate].
        - apply (own_mono h); [|exact O]. intros d Hq. rewrite V4. destruct (Nat.eqb_spec (sl_arr vs) v); [lia|]. apply S3. rewrite V2. destruct (Nat.eqb_spec (sl_arr vs) v); [lia|].
          unfold h1. rewrite nth_error_app1 by (unfold v in Z; exact Z). exact Hq. }
      cbn [app] in O3.
      assert (Ra : within (Datatypes.S v) (List.length h3) (slice_cells args)).
      { intros x. unfold slice_cells. pose proof (own_cap _ _ _ O3) as Oc. destruct (sl_cap args + sl_len args) as [|cap] eqn:Ec; [cbn; lia|]. cbn [cnt count_occ]. destruct (Nat.eq_dec (sl_arr args) x) as [<-|]; [|cbn; lia]. intros _.
        destruct H3 as [H3|H3]; [lia|]. apply nth_error_None in H3. destruct (own_bound _ _ _ O3) as [Z|Z]; [lia|]. unfold h1, v in *. rewrite app_length in L2. cbn in L2. lia. }
      assert (Oa : once (slice_cells args)) by (intros x; unfold slice_cells; destruct (sl_cap args + sl_len args); cbn; [lia|destruct (Nat.eq_dec (sl_arr args) x); lia]).
      assert (Sl : slice_at g4 args aw).
      { destruct (own_slice _ _ _ O3) as [La [->|(a & b & Ea & Oa')]]; (split; [exact La|]); [left; reflexivity|].
        destruct aw as [|w0 aw0]; [left; reflexivity|]. right. exists a, b. split; [|exact Oa'].
        assert (Na : sl_arr args <> v) by (intros X; rewrite X in Ea; congruence).
        unfold g4. rewrite V4. destruct (Nat.eqb_spec (sl_arr args) v); [contradiction|]. destruct (Nat.ltb_spec (sl_arr args) v) as [Lq|]; [|exact Ea]. exfalso.
        destruct H3 as [H3|H3].
        - destruct O3 as (_ & _ & [[_ X]|(rest & _ & X)]); [discriminate|]. rewrite H3 in X. discriminate.
        - apply nth_error_None in H3. lia. }
      assert (Cn : copied g4 old (SExp s) (WSExpr (Some p)) (WSExpr (Some v)) ((v :: slice_cells args) ++ picks cs i)).
      { cbn [app]. apply (renewed g4 old s p c ws v oc args aw); auto using (slice_at_mono _ _ Sg).
        - unfold g4. rewrite V4, Nat.eqb_refl, Nat.ltb_irrefl. reflexivity.
        - intros a Ia. apply (count_occ_In Nat.eq_dec) in Ia. specialize (Ra a Ia). unfold v in Ra. lia.
        - apply (proj2 (copied_mono g g4 old Sg)). exact C3. }
      destruct (append_ok spare g4 h4 vs done [WSExpr (Some v)] S4 O4 Hd4) as (h5 & vs5 & E5 & S5 & O5 & Hd5 & L5).
      assert (Lh5 : v < List.length h5) by lia. rewrite (mbind_ok _ _ _ _ _ E5).
      destruct (IH (Datatypes.S i) g4 h5 vs5 (done ++ [WSExpr (Some v)]) ltac:(unfold v in *; lia) ltac:(unfold v in *; lia) S5 O5 Hd5 (Sg _ _ Gp) Vg (slice_at_mono _ _ Sg _ _ Ha)
        (args_own_mono _ _ _ _ _ _ _ _ _ Sg F) Fc Fo ltac:(lia)) as (h' & vs' & ws' & g' & tops' & E' & Sg' & Sh & O' & Hd' & B' & L' & C' & Lt & Ot & Wt).
      exists h', vs', (WSExpr (Some v) :: ws'), g', ((v :: slice_cells args) :: tops'). rewrite <- app_assoc in O'.
      split; [exact E'|]. split; [eapply sub_trans; eauto|]. split; [exact Sh|]. split; [exact O'|]. split; [exact Hd'|].
      split; [apply (blind_trans _ (List.length h5) _ g4); [unfold v in *; lia|exact B4|exact B']|]. split; [unfold v in *; lia|].
      split; [cbn [map combine]; constructor; [apply (proj1 (copied_mono g4 g' old Sg')); exact Cn|exact C']|]. split; [cbn [List.length]; lia|].
      assert (Ov : once (v :: slice_cells args) /\ within v (List.length h5) (v :: slice_cells args)).
      { split; intros x; rewrite cnt_cons; specialize (Ra x); specialize (Oa x); destruct (Nat.eq_dec v x) as [<-|]; lia. }
      split; [cbn [List.concat]; eapply once_join; [apply Ov|exact Ot|apply Ov|exact Wt]|]. cbn [List.concat]. eapply within_join; [| |apply Ov|exact Wt]; unfold v in *; lia.
  Qed.

  Definition value_own (expand : word -> M slice) (t : value) : Prop :=
    forall g h w ts, expandvalue t = Ok ts -> sub g (view h) -> value_at g w t -> old <= List.length h ->
    exists h' sl g' css, expand w h = (h', Ok sl) /\ sub g g' /\ sub g' (view h') /\ blind (List.length h) g g' /\ List.length h <= List.length h' /\
      alts_own old g' (List.length h) (List.length h') t w sl css /\ List.length css = List.length ts.

  Lemma args_loop_own expand args : forall ws2 ts ws1 n g h n' ex, old <= List.length h -> sub g (view h) ->
    Forall (value_own expand) ts -> slice_at g args (ws1 ++ ws2) -> Forall2 (value_at g) ws2 ts ->
    expandargs (fun a => expandvalue a) n ts = Ok (n', ex) ->
    exists h' sls g' cs, h_args_loop expand args (List.length ws2) (List.length ws1) n h = (h', Ok (n', sls)) /\ sub g g' /\ sub g' (view h') /\
      blind (List.length h) g g' /\ List.length h <= List.length h' /\ args_own old g' (List.length h) (List.length h') ts ws2 sls cs /\
      map (@List.length _) cs = map (@List.length _) ex.
  Proof.
    induction ws2 as [|w ws2 IH]; intros ts ws1 n g h n' ex Lo S He Sl F E.
    - inversion F; subst. cbn [expandargs] in E. injection E as <- <-. exists h, [], g, []. split; [reflexivity|]. split; [apply sub_refl|]. split; [exact S|]. split; [apply blind_refl|]. split; [auto|].
      split; [constructor; auto|reflexivity].
    - destruct ts as [|t ts]; [inversion F|]. apply Forall2_cons_inv' in F. destruct F as [Vw F]. apply Forall_cons_iff in He. destruct He as [Ht He].
      cbn [List.length h_args_loop]. cbn [expandargs] in E.
      assert (A : at_ args (List.length ws1) h = (h, Ok w)).
      { eapply at_ok; [exact S|exact Sl|]. rewrite nth_error_app2, Nat.sub_diag by auto. reflexivity. }
      rewrite (mbind_ok _ _ _ _ _ A). destruct (expandvalue t) as [alts|e|x] eqn:Et; cbn [bind] in E; try discriminate.
      destruct (resolvecounts n (List.length alts)) as [m|e|x] eqn:Er; cbn [bind] in E; try discriminate.
      destruct (expandargs (fun a => expandvalue a) m ts) as [[m' ex']|e|x] eqn:Ea; cbn [bind] in E; try discriminate. injection E as <- <-.
      destruct (Ht g h w alts Et S Vw Lo) as (h1 & sl & g1 & css & X & S1 & Sv & B1 & L1 & Al & Lc). rewrite (mbind_ok _ _ _ _ _ X), (alts_own_len _ _ _ _ _ _ _ _ Al), Lc, Er.
      rewrite (mbind_ok (lift _) _ h1 h1 m) by reflexivity.
      specialize (IH ts (ws1 ++ [w]) m g1 h1 m' ex' ltac:(lia) Sv He). rewrite <- app_assoc, app_length in IH. cbn [List.length app] in IH. rewrite Nat.add_1_r in IH.
      destruct (IH (slice_at_mono _ _ S1 _ _ Sl) (values_mono _ _ S1 _ _ F) Ea) as (h2 & sls & g2 & cs & Y & S2 & Sv2 & B2 & L2 & Ao & Lcs).
      rewrite (mbind_ok _ _ _ _ _ Y). cbn [ret run fst snd]. exists h2, (sl :: sls), g2, (css :: cs). split; [reflexivity|]. split; [exact (sub_trans _ _ _ S1 S2)|]. split; [exact Sv2|].
      split; [exact (blind_trans _ _ _ _ _ L1 B1 B2)|]. split; [lia|]. split; [econstructor; [exact L1|eapply alts_own_mono; eauto|exact Ao]|]. cbn [map]. congruence.
  Qed.

  Lemma groups_length t ts : expandvalue t = Ok ts -> List.length ts = arity (value_groups t) /\ (List.length ts = 1 <-> value_groups t = []).
  Proof.
    intros E. destruct (expandvalue_outcome t (expandvalue_proper _ _ E)) as [(n & U & E')|(m & n & _ & _ & _ & E')]; [|congruence]. rewrite E in E'. injection E' as ->.
    rewrite map_length, seq_length. split; [apply Uni_arity; exact U|]. destruct U as [[-> ->]|(N & _ & L)]; [tauto|]. split; [lia|contradiction].
  Qed.

  Lemma literal_own g h t w w0 : sub g (view h) -> value_groups t = [] -> w0 = w ->
    exists h' sl g' css, literal [w0] h = (h', Ok sl) /\ sub g g' /\ sub g' (view h') /\ blind (List.length h) g g' /\ List.length h <= List.length h' /\
      alts_own old g' (List.length h) (List.length h') t w sl css /\ List.length css = 1.
  Proof.
    intros S Hg ->. destruct (literal_ok g h [w] S) as (h' & sl & g' & E & S1 & S2 & B & L & Sl). exists h', sl, g', [[]]. split; [exact E|]. split; [exact S1|]. split; [exact S2|]. split; [exact B|].
    split; [exact L|]. split; [|reflexivity]. exists [w]. split; [exact Sl|]. split; [constructor; [constructor; exact Hg|constructor]|]. cbn [List.concat app]. split; [apply once_nil|]. split; [apply within_nil|auto].
  Qed.

  Lemma cnt_zip (tops : list (list nat)) : forall cells x, List.length tops = List.length cells ->
    cnt (List.concat (map (fun x => fst x ++ snd x) (combine tops cells))) x = cnt (List.concat tops) x + cnt (List.concat cells) x.
  Proof.
    induction tops as [|a tops IH]; intros [|b cells] x L; try discriminate; [reflexivity|]. cbn [combine map List.concat fst snd]. rewrite !cnt_app, IH by (cbn in L; lia). lia.
  Qed.
  Lemma once_cnt l m : (forall x, cnt l x = cnt m x) -> once m -> once l.
  Proof. intros H O x. rewrite H. apply O. Qed.

  Lemma expandvalue_own t : forall fuel, height t <= fuel -> value_own (h_expandvalue spare fuel) t.
  Proof.
    induction t as [s IH|e|x|] using value_ind'; intros [|fuel] Hf g h w ts E S V Lo; try (cbn in Hf; lia).
    2: { cbn [expandvalue] in E. injection E as <-. inversion V; subst. cbn [h_expandvalue]. apply literal_own; auto. }
    2: { cbn [expandvalue] in E. injection E as <-. inversion V; subst. cbn [h_expandvalue]. apply literal_own; auto. }
    2: discriminate.
    pose proof (groups_length _ _ E) as [_ G1]. pose proof V as V0. inversion V as [p c s0 ws H0 H1 H2 H3 H4 H5 H6 H7 H8 H9| | |]; subst. cbn [h_expandvalue]. cbn [expandvalue] in E.
    assert (Gc : get_sexpr p h = (h, Ok c)) by (unfold get_sexpr; rewrite run_bind, get_run; rewrite (S _ _ H0); reflexivity).
    rewrite (mbind_ok _ _ _ _ _ Gc).
    assert (Op : h_expandop (h_op c) h = (h, expandop (s_op s))).
    { destruct (h_op c), (s_op s); cbn in H2 |- *; try contradiction; [subst; reflexivity| |reflexivity]. apply S in H2. rewrite H2. reflexivity. }
    destruct (expandop (s_op s)) as [opcodes|e|x] eqn:Eo; cbn [bind] in E; try discriminate. rewrite (mbind_ok _ _ _ _ _ Op).
    assert (IH' : Forall (value_own (h_expandvalue spare fuel)) (s_args s)).
    { rewrite Forall_forall in IH |- *. intros t I. apply IH; [exact I|]. cbn [height] in Hf.
      assert (X : height t <= fold_right Nat.max 0 (map height (s_args s))).
      { clear -I. induction (s_args s) as [|a l IHl]; [contradiction|]. cbn [map fold_right]. destruct I as [<-|I]; [lia|]. specialize (IHl I). lia. }
      lia. }
    destruct (expandargs (fun a => expandvalue a) (List.length opcodes) (s_args s)) as [[n ex]|e|x] eqn:Ea; cbn [bind] in E; try discriminate.
    destruct (args_loop_own (h_expandvalue spare fuel) (h_args c) ws (s_args s) [] (List.length opcodes) g h n ex Lo S IH' H6 H7 Ea) as (h1 & sls & g1 & cs & A & S1 & Sv1 & B1 & L1 & Ao & Lc).
    cbn [List.length] in A. assert (Lw : sl_len (h_args c) = List.length ws) by (apply H6). rewrite Lw, (mbind_ok _ _ _ _ _ A). cbn [fst snd].
    destruct (expandargs_ok _ _ _ _ Ea (proj2 (expandop_proper _ _ Eo))) as (Pn & Lo' & Fx). destruct (n =? 1) eqn:N1.
    - injection E as <-. destruct (literal_own g1 h1 (SExp s) (WSExpr (Some p)) _ Sv1 (proj1 G1 eq_refl) eq_refl) as (h' & sl & g' & css & E' & S2 & Sv2 & B2 & L2 & Al & Lcs).
      exists h', sl, g', css. split; [exact E'|]. split; [exact (sub_trans _ _ _ S1 S2)|]. split; [exact Sv2|]. split; [exact (blind_trans _ _ _ _ _ L1 B1 B2)|]. split; [lia|]. split; [|exact Lcs].
      destruct Al as (aw & Q1 & Q2 & Q3 & Q4 & Q5). exists aw. split; [exact Q1|]. split; [exact Q2|]. split; [exact Q3|]. split; [|exact Q5]. eapply within_weak; [| |exact Q4]; lia.
    - apply Nat.eqb_neq in N1. pose proof (mapM_length _ _ _ E) as Lts. rewrite seq_length in Lts.
      assert (Vg : value_groups (SExp s) <> []) by (rewrite <- G1; lia).
      destruct (make_ok g1 h1 WNil n Sv1) as (h2 & vs & E2 & S2 & O2 & Hd2 & Mn & K2). rewrite (mbind_ok _ _ _ _ _ E2). pose proof (keeps_len _ _ K2) as L2.
      assert (Fc : Forall (fun css : list (list nat) => List.length css = 1 \/ List.length css = n) cs).
      { clear -Lc Fx. revert ex Lc Fx. induction cs as [|a cs IHc]; intros [|b ex] Lc Fx; try discriminate; constructor; inversion Fx; subst; cbn in Lc; [|eapply IHc; eauto; congruence].
        injection Lc as -> _. assumption. }
      destruct (alternates_own p c s opcodes sls (List.length h) (List.length h1) ws cs n n 0 g1 h2 vs [] ltac:(lia) ltac:(lia) S2 O2 Hd2 (S1 _ _ H0) Vg (slice_at_mono _ _ S1 _ _ H6) Ao Fc Lo' eq_refl)
        as (h' & vs' & ws' & g' & tops & Q & Sg & Sh & O' & Hd' & Bg & L' & C & Lt & Ot & Wt).
      pose proof (safe_alternates spare h1 p opcodes sls n 0 vs Mn h2 K2) as [K' M']. rewrite Q in K', M'. cbn [fst snd] in K', M'. specialize (M' vs' eq_refl). cbn [app] in O'.
      destruct (own_view g' h' (List.length h1) vs' ws' Sh O' Hd' M') as (g2 & Sg2 & Sh2 & B2 & Sl2).
      exists h', vs', g2, (map (fun x => fst x ++ snd x) (combine tops (map (picks cs) (seq 0 n)))). split; [exact Q|]. split; [exact (sub_trans _ _ _ S1 (sub_trans _ _ _ Sg Sg2))|]. split; [exact Sh2|].
      split; [|split; [lia|]]. { apply (blind_trans _ _ _ _ _ L1 B1). intros q Lq Nq. apply B2; [exact Lq|]. apply Bg; [lia|exact Nq]. }
      destruct (picks_once old g1 (List.length h) (List.length h1) (s_args s) ws sls cs n Ao Fc N1) as [Po Pw].
      assert (Len : List.length tops = List.length (map (picks cs) (seq 0 n))) by (rewrite map_length, seq_length; exact Lt).
      split; [|rewrite map_length, combine_length, map_length, seq_length, Lt, Lts, Nat.min_id; reflexivity].
      exists ws'. split; [exact Sl2|]. split; [eapply Forall2_mono; [|exact C]; intros a b; apply (proj1 (copied_mono g' g2 old Sg2))|].
      split; [|split].
      + intros y. rewrite cnt_zip by exact Len. specialize (Po y). specialize (Pw y). specialize (Ot y). specialize (Wt y).
        destruct (Nat.eq_dec (cnt (List.concat tops) y) 0); [lia|]. destruct (Nat.eq_dec (cnt (List.concat (map (picks cs) (seq 0 n))) y) 0); lia.
      + intros y. rewrite cnt_zip by exact Len. specialize (Pw y). specialize (Wt y). intros P. destruct (Nat.eq_dec (cnt (List.concat tops) y) 0); lia.
      + intros Z. exfalso. rewrite map_length, combine_length, map_length, seq_length, Lt, Nat.min_id in Z. contradiction.
  Qed.

  (** *** Rules *)
  Lemma rule_copied_mono g g' r w w' cs : sub g g' -> rule_copied g old r w w' cs -> rule_copied g' old r w w' cs.
  Proof.
    intros S (p & c & q & m & x & ms & xs & A & B & C & D & E & F & G & H). exists p, c, q, m, x, ms, xs.
    pose proof (proj1 (copied_mono g g' old S)) as M. repeat split; auto.
  Qed.
  Lemma rule_expanded_mono g g' r w ws css : sub g g' -> rule_expanded g old r w ws css -> rule_expanded g' old r w ws css.
  Proof.
    intros S [A|(A & B & C)]; [left; exact A|right]. split; [exact A|]. split; [exact B|]. eapply Forall2_mono; [|exact C]. intros a b. apply rule_copied_mono. exact S.
  Qed.
  Lemma rules_expanded_mono g g' rs ws xs ys : sub g g' -> rules_expanded g old rs ws xs ys -> rules_expanded g' old rs ws xs ys.
  Proof. intros S F. induction F; constructor; auto. eapply rule_expanded_mono; eauto. Qed.

  Lemma new_rules_own p c r ms rs mcs rcs lo mid hi n : forall k i g h rules done,
    old <= List.length h -> sub g (view h) -> own h rules done -> hid g rules -> g p = Some (CRule c) ->
    alts_own old g lo mid (r_match r) (h_match c) ms mcs -> alts_own old g mid hi (r_result r) (h_result c) rs rcs ->
    (List.length mcs = 1 \/ List.length mcs = n) -> (List.length rcs = 1 \/ List.length rcs = n) -> i + k = n ->
    exists h' sl' ws' g' tops, new_rules spare p ms rs k i rules h = (h', Ok sl') /\ sub g g' /\ sub g' (view h') /\ own h' sl' (done ++ ws') /\
      hid g' sl' /\ blind (List.length h) g g' /\ List.length h <= List.length h' /\
      Forall2 (rule_copied g' old r (WRule (Some p))) ws' (map (fun x => fst x ++ snd x) (combine tops (map (picks [mcs; rcs]) (seq i k)))) /\
      List.length tops = k /\ once (List.concat tops) /\ within (List.length h) (List.length h') (List.concat tops).
  Proof.
    induction k as [|k IH]; intros i g h rules done Lo S O Hd Gp Am Ar Lm Lr Ik.
    - cbn [new_rules]. exists h, rules, [], g, []. rewrite app_nil_r. do 10 (split; [first [reflexivity|apply sub_refl|apply blind_refl|assumption|apply once_nil|apply within_nil|lia|constructor]|]). apply within_nil.
    - cbn [seq new_rules].
      destruct (at_pick g h lo mid (r_match r) (h_match c) ms mcs i S Am ltac:(lia)) as (wm & Em & Cm). rewrite (mbind_ok _ _ _ _ _ Em).
      assert (Gc : get_rule p h = (h, Ok c)) by (unfold get_rule; rewrite run_bind, get_run; rewrite (S _ _ Gp); reflexivity). rewrite (mbind_ok _ _ _ _ _ Gc).
      destruct (at_pick g h mid hi (r_result r) (h_result c) rs rcs i S Ar ltac:(lia)) as (wx & Ex & Cx). rewrite (mbind_ok _ _ _ _ _ Ex).
      set (nc := CRule {| h_match := wm; h_cond := h_cond c; h_block := h_block c; h_result := wx |}). rewrite (mbind_ok (alloc nc) _ h _ _ eq_refl).
      set (h1 := h ++ [nc]). set (v := List.length h).
      assert (gv : g v = None) by (eapply sub_fresh; eauto; unfold v; lia).
      assert (Ev : nth_error h1 v = Some nc) by (unfold h1, v; rewrite nth_error_app2, Nat.sub_diag by auto; reflexivity).
      set (g1 := with_cell g v (nth_error h1 v)).
      assert (S01 : sub g g1) by (apply with_new; exact gv).
      assert (S1 : sub g1 (view h1)) by (apply with_view, sub_alloc, S).
      assert (B1 : blind (List.length h) g g1) by (apply with_blind; auto).
      assert (O1 : own h1 rules done) by (apply own_new; exact O).
      assert (Hd1 : hid g1 rules).
      { destruct (own_bound _ _ _ O) as [Z|Z]; [left; exact Z|]. destruct Hd as [Hd|Hd]; [left; exact Hd|right]. unfold g1, with_cell. destruct (Nat.eqb_spec (sl_arr rules) v); [unfold v in *; lia|exact Hd]. }
      destruct (append_ok spare g1 h1 rules done [WRule (Some v)] S1 O1 Hd1) as (h2 & sl2 & E2 & S2 & O2 & Hd2 & L2). rewrite (mbind_ok _ _ _ _ _ E2).
      assert (Lh2 : v < List.length h2) by (unfold h1 in L2; rewrite app_length in L2; cbn in L2; unfold v; lia).
      destruct (IH (Datatypes.S i) g1 h2 sl2 (done ++ [WRule (Some v)]) ltac:(unfold v in *; lia) S2 O2 Hd2 (S01 _ _ Gp) (alts_own_mono _ _ _ _ _ _ _ _ _ S01 Am) (alts_own_mono _ _ _ _ _ _ _ _ _ S01 Ar) Lm Lr ltac:(lia))
        as (h' & sl' & ws' & g' & tops & E' & Sg & Sh & O' & Hd' & B' & L' & C' & Lt & Ot & Wt).
      exists h', sl', (WRule (Some v) :: ws'), g', ([v] :: tops). rewrite <- app_assoc in O'. split; [exact E'|]. split; [eapply sub_trans; eauto|]. split; [exact Sh|]. split; [exact O'|]. split; [exact Hd'|].
      split; [apply (blind_trans _ (List.length h2) _ g1); [unfold v in *; lia|exact B1|exact B']|]. split; [unfold v in *; lia|].
      split.
      { cbn [map combine]. constructor; [|exact C']. pose proof (proj1 (copied_mono g g' old (sub_trans _ _ _ S01 Sg))) as M.
        exists p, c, v, wm, wx, (picked i mcs), (picked i rcs). split; [reflexivity|]. split; [apply Sg, S01; exact Gp|]. split; [reflexivity|]. split; [unfold v; lia|].
        split; [apply Sg; unfold g1, with_cell; rewrite Nat.eqb_refl; exact Ev|]. split; [apply M; exact Cm|]. split; [apply M; exact Cx|].
        unfold picks. cbn [map List.concat fst snd app]. rewrite app_nil_r. reflexivity. }
      split; [cbn [List.length]; lia|]. cbn [List.concat app].
      assert (Ov : once [v] /\ within v (List.length h2) [v]) by (split; intros x; rewrite cnt_cons, cnt_nil; destruct (Nat.eq_dec v x); lia).
      change (v :: List.concat tops) with ([v] ++ List.concat tops).
      split; [eapply once_join; [apply Ov|exact Ot|apply Ov|exact Wt]|]. eapply within_join; [| |apply Ov|exact Wt]; unfold v in *; lia.
  Qed.

  Definition made_rules g lo hi (r : rule) (w : word) (sl : slice) (css : list (list nat)) : Prop :=
    exists ws, slice_at g sl ws /\ rule_expanded g old r w ws css /\ once (List.concat css) /\ within lo hi (List.concat css).

  Lemma rule_groups_nil r : rule_groups r = [] <-> value_groups (r_match r) = [] /\ value_groups (r_result r) = [].
  Proof. unfold rule_groups. destruct (value_groups (r_match r)); cbn; [tauto|]. split; [discriminate|intros [X _]; discriminate]. Qed.

  Lemma expandrule_own r fuel g h w l : rule_height r <= fuel -> old <= List.length h -> sub g (view h) -> rule_at g w r -> expandrule r = Ok l ->
    exists p h' sl g' css, w = WRule p /\ h_expandrule spare fuel p h = (h', Ok sl) /\ sub g g' /\ sub g' (view h') /\ blind (List.length h) g g' /\ List.length h <= List.length h' /\
      made_rules g' (List.length h) (List.length h') r w sl css.
  Proof.
    intros Hf Lo S (p & c & -> & Gp & Vm & Vc & Eb & Vr) E. exists (Some p).
    pose proof (proj1 (expandrule_iff r l) E) as (_ & _ & El). unfold expandrule in E. cbn [h_expandrule].
    assert (Gc : forall h', sub g (view h') -> get_rule p h' = (h', Ok c)) by (intros h' S'; unfold get_rule; rewrite run_bind, get_run; rewrite (S' _ _ Gp); reflexivity).
    rewrite (mbind_ok _ _ _ _ _ (Gc h S)). unfold rule_height in Hf.
    destruct (expandvalue (r_match r)) as [mt|e|x] eqn:Em; cbn [bind] in E; try discriminate.
    destruct (expandvalue (r_result r)) as [rt|e|x] eqn:Er; cbn [bind] in E; try discriminate.
    destruct (resolvecounts (List.length mt) (List.length rt)) as [n|e|x] eqn:En; cbn [bind] in E; try discriminate.
    destruct (expandvalue_own (r_match r) fuel ltac:(lia) g h (h_match c) mt Em S Vm Lo) as (h1 & ms & g1 & mcs & A & S1 & Sv1 & B1 & L1 & Am & Lm).
    rewrite (mbind_ok _ _ _ _ _ A), (mbind_ok _ _ _ _ _ (Gc h1 (sub_trans _ _ _ S1 Sv1))).
    destruct (expandvalue_own (r_result r) fuel ltac:(lia) g1 h1 (h_result c) rt Er Sv1 (value_at_mono _ _ S1 _ _ Vr) ltac:(lia)) as (h2 & rs & g2 & rcs & B & S2 & Sv2 & B2 & L2 & Ar & Lr).
    rewrite (mbind_ok _ _ _ _ _ B). rewrite (alts_own_len _ _ _ _ _ _ _ _ Am), (alts_own_len _ _ _ _ _ _ _ _ Ar), Lm, Lr, En.
    rewrite (mbind_ok (lift _) _ h2 h2 n) by reflexivity. pose proof (sub_trans _ _ _ S1 S2) as S12. pose proof (blind_trans _ _ _ _ _ L1 B1 B2) as B12.
    destruct (groups_length _ _ Em) as [Gm1 Gm]. destruct (groups_length _ _ Er) as [Gr1 Gr]. destruct (resolvecounts_ok _ _ _ En) as (P1 & P2 & P3 & P4 & P5 & P6).
    destruct (Nat.eqb_spec n 1) as [N1|N1].
    - destruct (literal_ok g2 h2 [WRule (Some p)] Sv2) as (h' & sl & g' & E' & S3 & Sv3 & B3 & L3 & Sl). exists h', sl, g', [[]]. split; [reflexivity|]. split; [exact E'|]. split; [exact (sub_trans _ _ _ S12 S3)|].
      split; [exact Sv3|]. split; [apply (blind_trans _ (List.length h2) _ g2); [lia|exact B12|exact B3]|]. split; [lia|]. exists [WRule (Some p)]. split; [exact Sl|].
      split; [left; split; [apply rule_groups_nil; split; [apply Gm|apply Gr]; lia|auto]|]. cbn [List.concat app]. split; [apply once_nil|apply within_nil].
    - destruct (make_ok g2 h2 (WRule None) n Sv2) as (h3 & sl & E3 & S3 & O3 & Hd3 & Mn & K3). rewrite (mbind_ok _ _ _ _ _ E3). pose proof (keeps_len _ _ K3) as L3.
      pose proof (alts_own_mono _ _ _ _ _ _ _ _ _ S2 Am) as Am2.
      destruct (new_rules_own p c r ms rs mcs rcs (List.length h) (List.length h1) (List.length h2) n n 0 g2 h3 sl [] ltac:(lia) S3 O3 Hd3 (S12 _ _ Gp) Am2 Ar ltac:(lia) ltac:(lia) eq_refl)
        as (h' & sl' & ws' & g' & tops & Q & Sg & Sh & O' & Hd' & Bg & L' & C & Lt & Ot & Wt). cbn [app] in O'.
      pose proof (safe_new_rules spare h2 p ms rs n 0 sl Mn h3 K3) as [K' M']. rewrite Q in K', M'. cbn [fst snd] in K', M'. specialize (M' sl' eq_refl).
      destruct (own_view g' h' (List.length h2) sl' ws' Sh O' Hd' M') as (g3 & Sg3 & Sh3 & B3 & Sl3).
      exists h', sl', g3, (map (fun x => fst x ++ snd x) (combine tops (map (picks [mcs; rcs]) (seq 0 n)))). split; [reflexivity|]. split; [exact Q|]. split; [exact (sub_trans _ _ _ S12 (sub_trans _ _ _ Sg Sg3))|]. split; [exact Sh3|].
      split; [|split; [lia|]]. { apply (blind_trans _ (List.length h2) _ g2); [lia|exact B12|]. intros q Lq Nq. apply B3; [exact Lq|]. apply Bg; [lia|exact Nq]. }
      assert (Ao : args_own old g2 (List.length h) (List.length h2) [r_match r; r_result r] [h_match c; h_result c] [ms; rs] [mcs; rcs]) by (econstructor; [exact L1|exact Am2|econstructor; [exact L2|exact Ar|constructor; lia]]).
      assert (Fc : Forall (fun css : list (list nat) => List.length css = 1 \/ List.length css = n) [mcs; rcs]) by (constructor; [lia|constructor; [lia|constructor]]).
      destruct (picks_once old g2 (List.length h) (List.length h2) _ _ _ _ n Ao Fc N1) as [Po Pw].
      assert (Len : List.length tops = List.length (map (picks [mcs; rcs]) (seq 0 n))) by (rewrite map_length, seq_length; exact Lt).
      exists ws'. split; [exact Sl3|]. split; [right|split].
      + split; [rewrite rule_groups_nil, <- Gm, <- Gr; lia|]. split.
        * rewrite (Forall2_length _ _ _ C), map_length, combine_length, map_length, seq_length, Lt, Nat.min_id.
          pose proof (f_equal (@List.length _) El) as X. unfold instances in X. rewrite map_length, seq_length in X. rewrite <- X.
          pose proof (mapM_length _ _ _ E) as Y. rewrite seq_length in Y. congruence.
        * eapply Forall2_mono; [|exact C]. intros a b. apply rule_copied_mono. exact Sg3.
      + intros y. rewrite cnt_zip by exact Len. specialize (Po y). specialize (Pw y). specialize (Ot y). specialize (Wt y).
        destruct (Nat.eq_dec (cnt (List.concat tops) y) 0); [lia|]. destruct (Nat.eq_dec (cnt (List.concat (map (picks [mcs; rcs]) (seq 0 n))) y) 0); lia.
      + intros y. rewrite cnt_zip by exact Len. specialize (Pw y). specialize (Wt y). intros P. destruct (Nat.eq_dec (cnt (List.concat tops) y) 0); lia.
  Qed.

  Lemma append_where h sl ws xs h' sl' : own h sl ws -> append spare sl xs h = (h', Ok sl') ->
    sl_cap sl' = 0 \/ sl_cap sl <> 0 /\ sl_arr sl' = sl_arr sl \/ List.length h <= sl_arr sl'.
  Proof.
    intros O E. destruct (Nat.eq_dec (sl_cap sl) 0) as [Z|Z].
    - destruct (append_ok spare (view h) h sl ws xs (sub_refl _) O (or_introl Z)) as (h2 & sl2 & E2 & _ & _ & Hd & _). rewrite E in E2. injection E2 as <- <-.
      destruct Hd as [Hd|Hd]; [auto|]. apply nth_error_None in Hd. auto.
    - set (g := with_cell (view h) (sl_arr sl) None). assert (S : sub g (view h)) by (intros q d; unfold g, with_cell; destruct (q =? sl_arr sl); congruence).
      destruct (append_ok spare g h sl ws xs S O) as (h2 & sl2 & E2 & _ & _ & Hd & _); [right; unfold g, with_cell; rewrite Nat.eqb_refl; reflexivity|].
      rewrite E in E2. injection E2 as <- <-. destruct Hd as [Hd|Hd]; [auto|]. unfold g, with_cell in Hd. destruct (Nat.eqb_spec (sl_arr sl') (sl_arr sl)) as [Q|Q]; [auto|]. apply nth_error_None in Hd. auto.
  Qed.

  Lemma expandrules_own fuel rules : forall ws2 rs ws1 g h exps done ts,
    Forall (fun r => rule_height r <= fuel) rs -> slice_at g rules (ws1 ++ ws2) -> Forall2 (rule_at g) ws2 rs ->
    old <= List.length h -> sub g (view h) -> own h exps done -> hid g exps -> expandrules rs = Ok ts ->
    exists h' sl' wss g' csss, h_expandrules spare fuel rules (List.length ws2) (List.length ws1) exps h = (h', Ok sl') /\ sub g g' /\ sub g' (view h') /\
        own h' sl' (done ++ List.concat wss) /\ hid g' sl' /\ blind (List.length h) g g' /\ List.length h <= List.length h' /\
        rules_expanded g' old rs ws2 wss csss /\ once (List.concat (List.concat csss)) /\ within (List.length h) (List.length h') (List.concat (List.concat csss)) /\
        (sl_cap sl' = 0 \/ sl_cap exps <> 0 /\ sl_arr sl' = sl_arr exps \/ List.length h <= sl_arr sl' /\ cnt (List.concat (List.concat csss)) (sl_arr sl') = 0).
  Proof.
    induction ws2 as [|w ws2 IH]; intros rs ws1 g h exps done ts Hf Sl F Lo S O Hd E.
    - inversion F; subst. exists h, exps, [], g, []. cbn [List.concat]. rewrite app_nil_r. split; [reflexivity|]. split; [apply sub_refl|]. split; [exact S|]. split; [exact O|]. split; [exact Hd|]. split; [apply blind_refl|].
      split; [lia|]. split; [constructor|]. split; [apply once_nil|]. split; [apply within_nil|]. destruct (Nat.eq_dec (sl_cap exps) 0); auto.
    - destruct rs as [|r rs]; [inversion F|]. apply Forall2_cons_inv' in F. destruct F as [Vw F]. apply Forall_cons_iff in Hf. destruct Hf as [Hr Hf].
      cbn [List.length h_expandrules]. cbn [expandrules] in E.
      assert (A : at_ rules (List.length ws1) h = (h, Ok w)) by (eapply at_ok; [exact S|exact Sl|]; rewrite nth_error_app2, Nat.sub_diag by auto; reflexivity).
      rewrite (mbind_ok _ _ _ _ _ A).
      destruct (expandrule r) as [l|e|x] eqn:Er; cbn [bind] in E; try discriminate. destruct (expandrules rs) as [us|e|x] eqn:Es; cbn [bind] in E; try discriminate.
      destruct (expandrule_own r fuel g h w l Hr Lo S Vw Er) as (p & h1 & sl & g1 & css & -> & X & S1 & Sv1 & B1 & L1 & wt & Slt & Rt & Oc & Wc).
      rewrite (mbind_ok _ _ _ _ _ X), (mbind_ok _ _ _ _ _ (elements_ok _ _ _ _ Sv1 Slt)).
      pose proof (safe_expandrule spare h fuel p h (keeps_refl h)) as [K1 _]. rewrite X in K1. cbn [fst] in K1.
      pose proof (own_mono h h1 exps done (fun d Hq => keeps_sub _ _ K1 _ _ Hq) O) as O1.
      assert (Hd1 : hid g1 exps).
      { destruct (own_bound _ _ _ O) as [Z|Z]; [left; exact Z|]. destruct Hd as [Hd|Hd]; [left; exact Hd|right]. apply B1; assumption. }
      destruct (append_ok spare g1 h1 exps done wt Sv1 O1 Hd1) as (h2 & sl2 & E2 & S2 & O2 & Hd2 & L2). rewrite (mbind_ok _ _ _ _ _ E2).
      specialize (IH rs (ws1 ++ [WRule p]) g1 h2 sl2 (done ++ wt) us Hf). rewrite <- app_assoc, app_length in IH. cbn [List.length app] in IH. rewrite Nat.add_1_r in IH.
      destruct (IH (slice_at_mono _ _ S1 _ _ Sl) (rules_mono _ _ S1 _ _ F) ltac:(lia) S2 O2 Hd2 Es) as (h' & sl' & wss & g' & csss & E' & Sg & Sh & O' & Hd' & B' & L' & C' & Oc' & Wc' & Ar).
      exists h', sl', (wt :: wss), g', (css :: csss). cbn [List.concat]. rewrite <- app_assoc in O'. split; [exact E'|]. split; [exact (sub_trans _ _ _ S1 Sg)|].
      split; [exact Sh|]. split; [exact O'|]. split; [exact Hd'|]. split; [apply (blind_trans _ (List.length h2) _ g1); [lia|exact B1|exact B']|]. split; [lia|].
      split; [constructor; [eapply rule_expanded_mono; eauto|exact C']|]. rewrite concat_app.
      split; [apply (once_join (List.length h) (List.length h1) (List.length h')); [exact Oc|exact Oc'|exact Wc|eapply within_weak; [| |exact Wc']; lia]|].
      split; [apply (within_join _ (List.length h1)); [lia|lia|exact Wc|eapply within_weak; [| |exact Wc']; lia]|].
      pose proof (append_where h1 exps done wt h2 sl2 O1 E2) as Wh. pose proof (own_bound _ _ _ O) as Be. specialize (Wc (sl_arr sl')). specialize (Wc' (sl_arr sl')). rewrite cnt_app.
      destruct Ar as [Z|[[Z Y]|[Z Y]]]; [left; exact Z| |right; right; lia]. destruct (Nat.eq_dec (sl_cap sl') 0) as [Q|Q]; [left; exact Q|].
      destruct Wh as [W|[[W1 W2]|W]]; [contradiction|right; left; split; congruence|right; right]. destruct (own_bound _ _ _ O2) as [B|B]; [contradiction|]. lia.
  Qed.
End Own.
