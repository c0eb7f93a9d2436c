(** Facts about goroutines that share memory: one goroutine among others. *)
From Verif Require Import Text GoAst Ast Expand Printer Smt Parse Heap HeapWalk HeapPrint HeapParse SpecHeap HeapFacts Conc SpecConc ConcFacts ConcParse.
From Coq Require Import Arith Lia Bool.
Open Scope nat_scope.
Open Scope list_scope.

(** ** Answers that differ by addresses only *)
Definition arel (w : world) (a b : answer) : Prop :=
  match a, b with Parsed p, Parsed q => fseen w p q | _, _ => a = b end.
Lemma arel_refl w a : (forall p, a <> Parsed p) -> arel w a a.
Proof. destruct a as [| | |p]; cbn; auto. intros H. destruct (H p eq_refl). Qed.
Lemma sim_start w c : (match c with
    | CallExpand _ _ f => fseen w f f /\ fowned w f f
    | CallHas _ _ r | CallGenerate _ r => seen w r r
    | CallPrint _ n => nodrel w n n
    | CallParse _ _ _ _ | CallProcess _ _ _ _ _ => True end) -> sim arel w (start c) (start c).
Proof.
  destruct c as [spare fuel f|x fuel r|fuel n|fuel r|gp spare fn data|gp spare fuel fn data]; cbn [start].
  - intros [S O]. eapply sim_bind; [apply sim_ExpandAlternates; assumption|]. intros. apply sim_ret. reflexivity.
  - intros S. eapply sim_bind; [apply sim_has; exact S|]. intros w' a b L E. veq E. apply sim_ret. reflexivity.
  - intros S. eapply sim_bind; [apply sim_Bytes; exact S|]. intros w' a b L E. veq E. apply sim_ret. reflexivity.
  - intros S. eapply sim_bind; [apply sim_Generate; exact S|]. intros w' a b L E. veq E. apply sim_ret. reflexivity.
  - intros _. eapply sim_bind; [apply sim_Parse|]. intros w' a b L E. apply sim_ret. exact (proj1 E).
  - intros _. eapply sim_bind; [apply sim_Parse|]. intros w1 p q L1 [S O]. eapply sim_bind; [apply sim_ExpandAlternates; assumption|].
    intros w2 _ _ L2 _. eapply sim_bind; [apply sim_Bytes; apply L2; exact S|]. intros w3 a b L3 E. veq E. apply sim_ret. reflexivity.
Qed.

(** ** One goroutine *)
Definition any (w : world) (p q : nat) : Prop := seen w p q \/ fseen w p q.
Definition any_own (w : world) (p q : nat) : Prop := owned w p q \/ fowned w p q.
Lemma any_le w w' p q : le w w' -> any w p q -> any w' p q.
Proof. intros L [A|A]; [left|right]; apply L; exact A. Qed.
Lemma any_own_le w w' p q : le w w' -> any_own w p q -> any_own w' p q.
Proof. intros L [A|A]; [left|right]; apply L; exact A. Qed.
Definition agree (w : world) (h H : heap) : Prop :=
  (forall p q, seen w p q -> exists c d, nth_error h p = Some c /\ nth_error H q = Some d /\ crel w c d) /\
  (forall p q, fseen w p q -> exists s t, nth_error h p = Some (CFile s) /\ nth_error H q = Some (CFile t) /\ srel w s t) /\
  (forall p q p' q', any w p q -> any w p' q' -> (p = p' <-> q = q')) /\
  (forall p q, owned w p q -> seen w p q) /\ (forall p q, fowned w p q -> fseen w p q).
Definition sees (w : world) (q : nat) : Prop := exists p, any w p q.
Definition owns (w : world) (q : nat) : Prop := exists p, any_own w p q.
(** What was there before is where it was; the rest is new and the goroutine's own. *)
Definition placed (h0 : heap) (w : world) (h : heap) : Prop :=
  List.length h0 <= List.length h /\
  forall p q, any w p q -> (p = q /\ p < List.length h0) \/ (List.length h0 <= p /\ any_own w p q).
(** [g] on [H] does what [c] does alone on [h0], up to addresses. *)
Definition alone (h0 : heap) (c : call) (w : world) (g : goroutine) (H : heap) : Prop :=
  exists m h, sim arel w m g /\ run m h = run (start c) h0 /\ agree w h H /\ placed h0 w h.

Lemma agree_bound w h H p q : agree w h H -> any w p q -> p < List.length h /\ q < List.length H.
Proof.
  intros (A & B & _) [S|S]; [destruct (A _ _ S) as (x & y & X & Y & _)|destruct (B _ _ S) as (x & y & X & Y & _)]; split; apply nth_error_Some; congruence.
Qed.
Lemma agree_own w h H p q : agree w h H -> any_own w p q -> any w p q.
Proof. intros (_ & _ & _ & O & O') [S|S]; [left; apply O; exact S|right; apply O'; exact S]. Qed.
Lemma crel_not_file w c d : crel w c d -> ~ is_file c /\ ~ is_file d.
Proof. destruct c, d; cbn; tauto. Qed.
Lemma sees_bound h0 c w g H q : alone h0 c w g H -> sees w q -> q < List.length H.
Proof. intros (m & h & _ & _ & A & _) [p S]. exact (proj2 (agree_bound _ _ _ _ _ A S)). Qed.
Lemma owns_sees h0 c w g H q : alone h0 c w g H -> owns w q -> sees w q.
Proof. intros (m & h & _ & _ & A & _) [p S]. exists p. exact (agree_own _ _ _ _ _ A S). Qed.

Lemma alone_env h0 c w g H H' : (forall q, sees w q -> nth_error H' q = nth_error H q) -> alone h0 c w g H -> alone h0 c w g H'.
Proof.
  intros E (m & h & S & R & (A & B & O) & Pl). exists m, h. split; [exact S|]. split; [exact R|]. split; [|exact Pl]. split; [|split; [|exact O]].
  - intros p q Sp. destruct (A _ _ Sp) as (x & y & X & Y & Z). exists x, y. split; [exact X|]. split; [|exact Z]. rewrite E; [exact Y|]. exists p. left. exact Sp.
  - intros p q Sp. destruct (B _ _ Sp) as (x & y & X & Y & Z). exists x, y. split; [exact X|]. split; [|exact Z]. rewrite E; [exact Y|]. exists p. right. exact Sp.
Qed.

Lemma nth_app_new {A} (l : list A) x : nth_error (l ++ [x]) (List.length l) = Some x.
Proof. rewrite nth_error_app2, Nat.sub_diag by auto. reflexivity. Qed.
Lemma nth_app_old {A} (l m : list A) i c : nth_error l i = Some c -> nth_error (l ++ m) i = Some c.
Proof. intros E. rewrite nth_error_app1; [exact E|]. apply nth_error_Some. congruence. Qed.

(** A new cell, and a cell written. *)
Lemma agree_new w h H c d w' : agree w h H -> le w w' ->
  (forall p q, any w' p q -> any w p q \/ (p = List.length h /\ q = List.length H)) ->
  (forall p q, seen w' p q -> seen w p q \/ (p = List.length h /\ q = List.length H /\ crel w c d)) ->
  (forall p q, fseen w' p q -> fseen w p q \/ (p = List.length h /\ q = List.length H /\ exists s t, c = CFile s /\ d = CFile t /\ srel w s t)) ->
  (forall p q, owned w' p q -> seen w' p q) -> (forall p q, fowned w' p q -> fseen w' p q) ->
  agree w' (h ++ [c]) (H ++ [d]).
Proof.
  intros Ag L An Se Fs Ow Fo. pose proof (fun p q => agree_bound w h H p q Ag) as Bd. destruct Ag as (A & B & J & O & O'). split; [|split; [|split; [|split; [exact Ow|exact Fo]]]].
  - intros p q S. destruct (Se _ _ S) as [Sp|(-> & -> & Z)].
    + destruct (A _ _ Sp) as (x & y & X & Y & Z). exists x, y. split; [apply nth_app_old; exact X|]. split; [apply nth_app_old; exact Y|eapply crel_le; eauto].
    + exists c, d. split; [apply nth_app_new|]. split; [apply nth_app_new|eapply crel_le; eauto].
  - intros p q S. destruct (Fs _ _ S) as [Sp|(-> & -> & s & t & -> & -> & Z)].
    + destruct (B _ _ Sp) as (x & y & X & Y & Z). exists x, y. split; [apply nth_app_old; exact X|]. split; [apply nth_app_old; exact Y|eapply srel_le; eauto].
    + exists s, t. split; [apply nth_app_new|]. split; [apply nth_app_new|eapply srel_le; eauto].
  - intros p q p' q' Sp Sq. destruct (An _ _ Sp) as [X|[-> ->]], (An _ _ Sq) as [Y|[-> ->]]; [apply J; assumption| | |tauto].
    + destruct (Bd _ _ X). lia.
    + destruct (Bd _ _ Y). lia.
Qed.
Lemma write_put p c (h : heap) : p < List.length h -> write p c h = put p c h.
Proof. intros L. unfold write. rewrite (proj2 (Nat.ltb_lt _ _) L). reflexivity. Qed.
Lemma agree_put w h H p q c d : agree w h H -> any w p q ->
  (seen w p q -> crel w c d) -> (fseen w p q -> exists s t, c = CFile s /\ d = CFile t /\ srel w s t) ->
  agree w (put p c h) (put q d H).
Proof.
  intros Ag S K K'. destruct (agree_bound _ _ _ _ _ Ag S) as [Lp Lq]. destruct Ag as (A & B & J & O). split; [|split; [|split; [exact J|exact O]]].
  - intros p' q' S'. rewrite !put_spec by assumption. pose proof (J _ _ _ _ (or_introl S') S) as E. destruct (Nat.eqb_spec p' p) as [->|N], (Nat.eqb_spec q' q) as [->|N']; try tauto; [exists c, d; auto|]. apply A. exact S'.
  - intros p' q' S'. rewrite !put_spec by assumption. pose proof (J _ _ _ _ (or_intror S') S) as E. destruct (Nat.eqb_spec p' p) as [->|N], (Nat.eqb_spec q' q) as [->|N']; try tauto; [|apply B; exact S'].
    destruct (K' S') as (s & t & -> & -> & R). eauto.
Qed.
Lemma agree_kind w h H p q : agree w h H -> seen w p q -> fseen w p q -> False.
Proof. intros (A & B & _) S T. destruct (A _ _ S) as (x & y & X & _ & Z). destruct (B _ _ T) as (s & t & Y & _). rewrite X in Y. inversion Y; subst. destruct y; contradiction. Qed.

(** The pointers that a cell holds are to cells that the goroutine sees, and none is an ast.File. *)
Lemma crel_points w c d q : crel w c d \/ (exists s t, c = CFile s /\ d = CFile t /\ srel w s t) -> points d q -> exists p, seen w p q.
Proof.
  assert (S : forall s t, srel w s t -> slice_points t q -> exists p, seen w p q).
  { intros s t (_ & E1 & E2 & R) [N <-]. destruct R as [[R1 R2]|R]; [destruct N; split; congruence|eauto]. }
  assert (W : forall x y, wrel w x y -> word_points y q -> exists p, seen w p q).
  { intros x y R P. destruct x as [[a|]|[a|]| | |[a|]], y as [[b|]|[b|]| | |[b|]]; cbn in *; try contradiction; try discriminate; inversion P; subst; eauto. }
  assert (P : forall x y, prel w x y -> y = Some q -> exists p, seen w p q).
  { intros x y R ->. destruct x; cbn in R; [eauto|contradiction]. }
  intros [R|(s & t & -> & -> & R)]; [|exact (S _ _ R)]. destruct c as [s|e|r| |a|ps], d as [t|e'|r'| |b|ps']; cbn [crel points] in *; try contradiction; intros Hp.
  - destruct R as (R1 & R2 & R3 & R4 & R5 & R6 & _). destruct Hp as [Hp|[Hp|[Hp|Hp]]]; [|eauto|eauto|eauto]. rewrite Hp in R2. destruct (h_op s); cbn in R2; try contradiction. eauto.
  - destruct R as (R1 & R2 & R3 & R4). destruct Hp as [Hp|[Hp|Hp]]; eauto.
  - destruct Hp as (y & Iy & Hy). clear -R W Iy Hy. induction R as [|x z a b Rx R IH]; cbn in Iy; [contradiction|]. destruct Iy as [->|Iy]; eauto.
Qed.

Lemma alone_step h0 c w g H a g' H' : alone h0 c w g H -> go_step g H a g' H' ->
  exists w', alone h0 c w' g' H' /\ le w w' /\ sees w' (address a) /\ (changes a -> owns w' (address a)) /\
    (forall q, sees w' q -> sees w q \/ q = List.length H) /\ (forall q, owns w' q -> owns w q \/ q = List.length H) /\
    (forall q, q < List.length H -> ~ owns w q -> nth_error H' q = nth_error H q) /\ List.length H <= List.length H' /\
    (closed H -> closed H') /\ (forall q d, nth_error H q = Some d -> exists d', nth_error H' q = Some d' /\ (is_file d <-> is_file d')).
Proof.
  intros (m & h & S & R & Ag & Pl) St.
  assert (New : forall c1 d1 w', (forall p q, any w' p q -> any w p q \/ (p = List.length h /\ q = List.length H)) ->
      (forall p q, any_own w' p q -> any_own w p q \/ (p = List.length h /\ q = List.length H)) ->
      any_own w' (List.length h) (List.length H) -> le w w' -> any w' (List.length h) (List.length H) ->
      (crel w c1 d1 \/ exists s t, c1 = CFile s /\ d1 = CFile t /\ srel w s t) ->
      placed h0 w' (h ++ [c1]) /\ sees w' (List.length H) /\ owns w' (List.length H) /\
      (forall q, sees w' q -> sees w q \/ q = List.length H) /\ (forall q, owns w' q -> owns w q \/ q = List.length H) /\
      (forall q, q < List.length H -> ~ owns w q -> nth_error (H ++ [d1]) q = nth_error H q) /\ List.length H <= List.length (H ++ [d1]) /\
      (closed H -> closed (H ++ [d1])) /\ (forall q d, nth_error H q = Some d -> exists d', nth_error (H ++ [d1]) q = Some d' /\ (is_file d <-> is_file d'))).
  { intros c1 d1 w' An Ao Own L Any Cr. destruct Pl as [Lh Pl]. split; [split; [rewrite app_length; lia|]|].
    - intros p q Sp. destruct (An _ _ Sp) as [X|[-> ->]]; [|right; split; [exact Lh|exact Own]]. destruct (Pl _ _ X) as [Y|[Y Z]]; [left; exact Y|right; split; [exact Y|exact (any_own_le _ _ _ _ L Z)]].
    - split; [exists (List.length h); exact Any|]. split; [exists (List.length h); exact Own|]. split; [|split; [|split; [|split; [|split]]]].
      + intros q [p Sp]. destruct (An _ _ Sp) as [X|[_ X]]; [left; exists p; exact X|right; exact X].
      + intros q [p Sp]. destruct (Ao _ _ Sp) as [X|[_ X]]; [left; exists p; exact X|right; exact X].
      + intros q Lq _. rewrite nth_error_app1 by exact Lq. reflexivity.
      + rewrite app_length. lia.
      + intros Cl x y p E P. assert (Z : exists z, nth_error H p = Some z /\ ~ is_file z).
        { destruct (Nat.ltb_spec x (List.length H)) as [Lx|Lx]; [rewrite nth_error_app1 in E by exact Lx; exact (Cl _ _ _ E P)|].
          rewrite nth_error_app2 in E by exact Lx. destruct (x - List.length H) as [|k]; [|destruct k; discriminate]. inversion E; subst.
          destruct (crel_points _ _ _ _ Cr P) as (p' & Sp'). destruct Ag as (A & _). destruct (A _ _ Sp') as (u & v & _ & V & Z). exists v. split; [exact V|exact (proj2 (crel_not_file _ _ _ Z))]. }
        destruct Z as (z & Ez & Nz). exists z. split; [apply nth_app_old; exact Ez|exact Nz].
      + intros q d E. exists d. split; [apply nth_app_old; exact E|tauto]. }
  assert (Put : forall p q c1 d1, any_own w p q -> (crel w c1 d1 \/ exists s t, c1 = CFile s /\ d1 = CFile t /\ srel w s t) ->
      (seen w p q -> crel w c1 d1) -> (fseen w p q -> exists s t, c1 = CFile s /\ d1 = CFile t /\ srel w s t) ->
      write p c1 h = put p c1 h /\ write q d1 H = put q d1 H /\ agree w (put p c1 h) (put q d1 H) /\ placed h0 w (put p c1 h) /\
      (forall q', q' < List.length H -> ~ owns w q' -> nth_error (put q d1 H) q' = nth_error H q') /\ List.length H <= List.length (put q d1 H) /\
      (closed H -> closed (put q d1 H)) /\ (forall q' d, nth_error H q' = Some d -> exists d', nth_error (put q d1 H) q' = Some d' /\ (is_file d <-> is_file d'))).
  { intros p q c1 d1 Op Cr K K'. pose proof (agree_own _ _ _ _ _ Ag Op) as Sp. destruct (agree_bound _ _ _ _ _ Ag Sp) as [Lp Lq].
    assert (Kind : forall q' d, nth_error H q' = Some d -> exists d', nth_error (put q d1 H) q' = Some d' /\ (is_file d <-> is_file d')).
    { intros q' d E. rewrite put_spec by exact Lq. destruct (Nat.eqb_spec q' q) as [->|N]; [|exists d; split; [exact E|tauto]]. exists d1. split; [reflexivity|].
      destruct Ag as (A & B & _). destruct Sp as [Sp|Sp].
      - destruct (A _ _ Sp) as (x & y & _ & Y & Z). rewrite E in Y. inversion Y; subst. pose proof (crel_not_file _ _ _ Z). pose proof (crel_not_file _ _ _ (K Sp)). tauto.
      - destruct (B _ _ Sp) as (x & y & _ & Y & Z). rewrite E in Y. inversion Y; subst. destruct (K' Sp) as (s & t & _ & -> & _). cbn. tauto. }
    split; [apply write_put; exact Lp|]. split; [apply write_put; exact Lq|]. split; [apply agree_put; assumption|]. split; [destruct Pl as [Lh Pl]; split; [rewrite put_length by exact Lp; exact Lh|exact Pl]|].
    split; [|split; [rewrite put_length by exact Lq; lia|split; [|exact Kind]]].
    - intros q' Lq' N. rewrite put_spec by exact Lq. destruct (Nat.eqb_spec q' q) as [->|]; [destruct N; exists p; exact Op|reflexivity].
    - intros Cl x y z E P. assert (Z : exists u, nth_error H z = Some u /\ ~ is_file u).
      { rewrite put_spec in E by exact Lq. destruct (Nat.eqb_spec x q) as [->|N]; [|exact (Cl _ _ _ E P)]. inversion E; subst.
        destruct (crel_points _ _ _ _ Cr P) as (p' & Sp'). destruct Ag as (A & _). destruct (A _ _ Sp') as (u & v & _ & V & Z). exists v. split; [exact V|exact (proj2 (crel_not_file _ _ _ Z))]. }
      destruct Z as (u & Eu & Nu). destruct (Kind _ _ Eu) as (u' & Eu' & I). exists u'. split; [exact Eu'|tauto]. }
  destruct St as [q k H|d k H|q d k H];
    inversion S as [|w0 p q0 j k0 Sp K|w0 cc d0 j k0 Cr K|w0 p q0 cc d0 j k0 Op Cr K|w0 p q0 j k0 Sp K|w0 s t j k0 Cr K|w0 p q0 s t j k0 Op Cr K]; subst.
  - exists w. pose proof Ag as (A & _). destruct (A _ _ Sp) as (x & y & X & Y & Z). split; [|split; [apply ConcFacts.le_refl|split; [exists p; left; exact Sp|]]].
    + exists (j (Some x)), h. split; [rewrite Y; apply K; exact Z|]. split; [|split; [exact Ag|exact Pl]]. rewrite <- R. cbn [run]. rewrite X. reflexivity.
    + cbn [changes]. split; [contradiction|]. repeat (split; [auto|]). intros q' d E. exists d. tauto.
  - exists w. pose proof Ag as (_ & B & _). destruct (B _ _ Sp) as (x & y & X & Y & Z). split; [|split; [apply ConcFacts.le_refl|split; [exists p; right; exact Sp|]]].
    + exists (j (Some (CFile x))), h. split; [rewrite Y; apply K; exact Z|]. split; [|split; [exact Ag|exact Pl]]. rewrite <- R. cbn [run]. rewrite X. reflexivity.
    + cbn [changes]. split; [contradiction|]. repeat (split; [auto|]). intros q' d E. exists d. tauto.
  - pose proof (le_add w (List.length h) (List.length H)) as L. exists (add w (List.length h) (List.length H)).
    destruct (New cc d (add w (List.length h) (List.length H))) as (Pl' & Se & Ow & Rest); [unfold any, any_own; cbn; tauto..|exact L|left; right; auto|auto|].
    split; [|split; [exact L|split; [exact Se|split; [intros _; exact Ow|exact Rest]]]]. exists (j (List.length h)), (h ++ [cc]). split; [apply K|]. split; [rewrite <- R; reflexivity|]. split; [|exact Pl'].
    pose proof Ag as (_ & _ & _ & O1 & O2). apply (agree_new w); auto; unfold any; cbn; try tauto; intros p q [Hp|Hp]; auto.
  - pose proof (le_addf w (List.length h) (List.length H)) as L. exists (addf w (List.length h) (List.length H)).
    destruct (New (CFile s) (CFile t) (addf w (List.length h) (List.length H))) as (Pl' & Se & Ow & Rest); [unfold any, any_own; cbn; tauto..|exact L|right; right; auto|right; eauto|].
    split; [|split; [exact L|split; [exact Se|split; [intros _; exact Ow|exact Rest]]]]. exists (j (List.length h)), (h ++ [CFile s]). split; [apply K|]. split; [rewrite <- R; reflexivity|]. split; [|exact Pl'].
    pose proof Ag as (_ & _ & _ & O1 & O2). apply (agree_new w); auto; unfold any; cbn; try tauto; intros p q [Hp|Hp]; auto.
    destruct Hp. subst. right. split; [reflexivity|]. split; [reflexivity|]. exists s, t. auto.
  - exists w. pose proof Ag as (_ & _ & _ & O1 & _). pose proof (O1 _ _ Op) as Sp.
    destruct (Put p q cc d (or_introl Op) (or_introl Cr)) as (W1 & W2 & Ag' & Pl' & Rest); [auto|intros F; destruct (agree_kind _ _ _ _ _ Ag Sp F)|]. rewrite W2.
    split; [|split; [apply ConcFacts.le_refl|split; [exists p; left; exact Sp|split; [intros _; exists p; left; exact Op|split; [auto|split; [auto|exact Rest]]]]]].
    exists j, (put p cc h). split; [exact K|]. split; [rewrite <- R; cbn [run]; rewrite W1; reflexivity|]. split; [exact Ag'|exact Pl'].
  - exists w. pose proof Ag as (_ & _ & _ & _ & O2). pose proof (O2 _ _ Op) as Sp.
    destruct (Put p q (CFile s) (CFile t) (or_intror Op)) as (W1 & W2 & Ag' & Pl' & Rest); [right; eauto|intros F; destruct (agree_kind _ _ _ _ _ Ag F Sp)|eauto|]. rewrite W2.
    split; [|split; [apply ConcFacts.le_refl|split; [exists p; right; exact Sp|split; [intros _; exists p; right; exact Op|split; [auto|split; [auto|exact Rest]]]]]].
    exists j, (put p (CFile s) h). split; [exact K|]. split; [rewrite <- R; cbn [run]; rewrite W1; reflexivity|]. split; [exact Ag'|exact Pl'].
Qed.

Lemma alone_done h0 c w r H : alone h0 c w (Done r) H -> exists h s, run (start c) h0 = (h, s) /\ rrel (arel w) s r /\ agree w h H /\ placed h0 w h.
Proof.
  intros (m & h & S & R & A & Pl). inversion S as [w0 r0 s0 E| | | | | |]; subst. exists h, r0. auto.
Qed.
Lemma rrel_same w s r : rrel (arel w) s r -> (forall p, s <> Ok (Parsed p)) -> r = s.
Proof.
  intros E N. destruct s as [a|e|e], r as [b|e'|e']; cbn in E; try contradiction; try congruence. destruct a, b; cbn in E; try discriminate; try congruence; destruct (N _ eq_refl).
Qed.
