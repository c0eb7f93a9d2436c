(** Facts about goroutines that share memory: all schedules. *)
From Verif Require Import Text GoAst Ast Expand Heap HeapWalk HeapPrint SpecHeap SpecFresh HeapFacts Conc SpecConc ConcFacts ConcAlone.
From Coq Require Import Arith Lia Bool.
Open Scope nat_scope.
Open Scope list_scope.

(** ** The start *)
Definition world0 (h : heap) (c : call) : world :=
  {| seen := fun p q => p = q /\ exists d, nth_error h p = Some d /\ ~ is_file d; owned := fun _ _ => False;
     fseen := fun p q => p = q /\ (In p (expands c) \/ In p (prints c)); fowned := fun p q => p = q /\ In p (expands c) |}.
Section Start.
  Variable h : heap.
  Hypothesis C : closed h.
  Variable c : call.
  Hypothesis K : call_ok h c.
  Lemma expands_file p : In p (expands c) -> exists sl, nth_error h p = Some (CFile sl).
  Proof. destruct c; cbn in *; try contradiction. intros [<-|[]]. exact K. Qed.
  Lemma prints_file p : In p (prints c) -> exists sl, nth_error h p = Some (CFile sl).
  Proof. destruct c as [| |fuel [[f|]|w]| | |]; cbn in *; try contradiction. intros [<-|[]]. apply K. reflexivity. Qed.
  Lemma pts a d p : nth_error h a = Some d -> points d p -> seen (world0 h c) p p.
  Proof. intros E P. split; [reflexivity|]. exact (C _ _ _ E P). Qed.
  Lemma word0 w : (forall p, word_points w p -> seen (world0 h c) p p) -> wrel (world0 h c) w w.
  Proof. destruct w as [[p|]|[p|]|x| |[p|]]; cbn; intros H; auto; apply H; reflexivity. Qed.
  Lemma slice0 s : (forall p, slice_points s p -> seen (world0 h c) p p) -> srel (world0 h c) s s.
  Proof.
    intros H. repeat split. destruct (Nat.eq_dec (sl_len s) 0) as [E|E]; [|right; apply H; split; [tauto|reflexivity]].
    destruct (Nat.eq_dec (sl_cap s) 0) as [E'|E']; [left; auto|right; apply H; split; [tauto|reflexivity]].
  Qed.
  Lemma cell0 a d : nth_error h a = Some d -> ~ is_file d -> crel (world0 h c) d d.
  Proof.
    intros E Nf. pose proof (fun p => pts a d p E) as P. destruct d as [s|e|r|sl|ws|ps]; cbn [crel points] in *; auto.
    - split; [reflexivity|]. split; [destruct (h_op s); [reflexivity| |exact I]; apply P; auto|]. split; [reflexivity|].
      split; [destruct (h_auxint s); cbn [prel]; [apply P; auto|exact I]|]. split; [destruct (h_aux s); cbn [prel]; [apply P; auto|exact I]|].
      split; [apply slice0; intros p Hp; apply P; auto|auto].
    - split; [apply word0; intros p Hp; apply P; auto|]. split; [destruct (h_cond r); cbn [prel]; [apply P; auto|exact I]|]. split; [reflexivity|apply word0; intros p Hp; apply P; auto].
    - destruct (Nf I).
    - apply Forall2_same. intros w I. apply word0. intros p Hp. apply P. eauto.
  Qed.
  Lemma file0 a sl : nth_error h a = Some (CFile sl) -> srel (world0 h c) sl sl.
  Proof. intros E. apply slice0. intros p Hp. exact (pts a (CFile sl) p E Hp). Qed.
  Lemma files0 p : In p (expands c) \/ In p (prints c) -> exists sl, nth_error h p = Some (CFile sl).
  Proof. intros [I|I]; [exact (expands_file _ I)|exact (prints_file _ I)]. Qed.
  Lemma alone0 : alone h c (world0 h c) (start c) h.
  Proof.
    exists (start c), h. split; [|split; [reflexivity|split; [split; [|split; [|split; [|split]]]|]]].
    - apply sim_start. destruct c as [spare fuel f|x fuel r|fuel [[f|]|w']|fuel r| |]; cbn; [auto 10| |auto 10|exact I| | |exact I|exact I].
      + split; [reflexivity|]. exact K.
      + destruct w' as [[p|]|[p|]|x| |[p|]]; cbn; auto; (split; [reflexivity|apply K; reflexivity]).
      + split; [reflexivity|]. exact K.
    - intros p q [-> (d & E & N)]. exists d, d. split; [exact E|]. split; [exact E|exact (cell0 _ _ E N)].
    - intros p q [-> I]. destruct (files0 _ I) as (sl & E). exists sl, sl. split; [exact E|]. split; [exact E|exact (file0 _ _ E)].
    - intros p q p' q' [[-> _]|[-> _]] [[-> _]|[-> _]]; tauto.
    - intros p q [].
    - intros p q [-> I]. split; [reflexivity|left; exact I].
    - split; [lia|]. intros p q [[-> (d & E & N)]|[-> I]]; left; (split; [reflexivity|]); apply nth_error_Some; [congruence|]. destruct (files0 _ I) as (sl & E). congruence.
  Qed.
End Start.

(** ** All goroutines *)
Lemma with_nth_spec {A} (l : list A) i x : i < List.length l -> forall j, nth_error (with_nth l i x) j = if j =? i then Some x else nth_error l j.
Proof.
  revert i. induction l as [|a l IH]; intros i L j; cbn in L; [lia|]. destruct i as [|i]; [destruct j; reflexivity|].
  change (with_nth (a :: l) (S i) x) with (a :: with_nth l i x). destruct j as [|j]; [reflexivity|]. cbn [nth_error]. rewrite IH by lia. reflexivity.
Qed.
Lemma with_nth_length {A} (l : list A) i x : i < List.length l -> List.length (with_nth l i x) = List.length l.
Proof. intros L. unfold with_nth. rewrite app_length, firstn_length. cbn [List.length]. rewrite skipn_length. lia. Qed.

Section All.
  Variable h0 : heap.
  Variable cs : list call.
  Hypothesis C : closed h0.
  Hypothesis K : calls_ok h0 cs.

  Definition all_alone (tr : list (nat * access)) (gs : list goroutine) (H : heap) : Prop :=
    List.length gs = List.length cs /\ List.length h0 <= List.length H /\
    exists ws : nat -> world,
      (forall i g c, nth_error gs i = Some g -> nth_error cs i = Some c -> alone h0 c (ws i) g H) /\
      (forall i j q, i < List.length cs -> j < List.length cs -> i <> j -> owns (ws i) q -> ~ sees (ws j) q) /\
      (forall i c q, nth_error cs i = Some c -> owns (ws i) q -> In q (expands c) \/ List.length h0 <= q) /\
      (forall i c q, nth_error cs i = Some c -> In q (expands c) -> fseen (ws i) q q) /\
      (forall i a, In (i, a) tr -> i < List.length cs /\ sees (ws i) (address a) /\ (changes a -> owns (ws i) (address a))) /\
      (forall p d, nth_error h0 p = Some d -> ~ In p (List.concat (map expands cs)) -> nth_error H p = Some d) /\
      closed H /\ (forall q d, nth_error h0 q = Some d -> exists d', nth_error H q = Some d' /\ (is_file d <-> is_file d')).

  Lemma in_concat i c q : nth_error cs i = Some c -> In q (expands c) -> In q (List.concat (map expands cs)).
  Proof. intros E I. apply nth_error_In in E. apply in_concat. exists (expands c). split; [apply in_map; exact E|exact I]. Qed.
  Lemma nodup_disjoint i j c d q : NoDup (List.concat (map expands cs)) -> nth_error cs i = Some c -> nth_error cs j = Some d -> i <> j -> In q (expands c) -> In q (expands d) -> False.
  Proof.
    clear C K. revert i j. induction cs as [|x l IH]; intros i j N Ei Ej D Ic Id; [destruct i; discriminate|]. cbn [map List.concat] in N.
    assert (Nl : NoDup (List.concat (map expands l))) by (clear -N; induction (expands x); cbn in *; [exact N|inversion N; auto]).
    assert (X : forall y, In y (expands x) -> ~ In y (List.concat (map expands l))).
    { clear -N. induction (expands x) as [|z e IHe]; intros y Hy; [contradiction|]. cbn in N. inversion N; subst. destruct Hy as [<-|Hy]; [intros B; apply H1, in_or_app; auto|apply IHe; auto]. }
    assert (Y : forall k d, nth_error l k = Some d -> In q (expands d) -> In q (List.concat (map expands l))).
    { intros k e Ek Ie. apply List.in_concat. exists (expands e). split; [apply in_map; eapply nth_error_In; eauto|exact Ie]. }
    destruct i as [|i], j as [|j]; cbn in Ei, Ej; [congruence|inversion Ei; subst; eapply X; eauto|inversion Ej; subst; eapply X; eauto|].
    eapply (IH i j); eauto.
  Qed.

  Lemma all_start : all_alone [] (map start cs) h0.
  Proof.
    destruct K as (Kc & Kn & Kp). rewrite Forall_forall in Kc. split; [apply map_length|]. split; [lia|].
    exists (fun i => match nth_error cs i with Some c => world0 h0 c | None => world0 h0 (CallHas FType 0 0) end).
    split; [|split; [|split; [|split; [|split; [|split; [|split]]]]]].
    - intros i g c Eg Ec. rewrite Ec. rewrite (map_nth_error start _ _ Ec) in Eg. inversion Eg; subst. apply alone0; [exact C|]. apply Kc. eapply nth_error_In; eauto.
    - intros i j q Li Lj D. destruct (nth_error cs i) as [c|] eqn:Ei; [|apply nth_error_None in Ei; lia]. destruct (nth_error cs j) as [d|] eqn:Ej; [|apply nth_error_None in Ej; lia].
      intros [p [[]|[-> I]]] [p' [[-> (x & Ex & N)]|[-> [I'|I']]]]; [|eapply (nodup_disjoint i j); eauto|apply (Kp q); [apply List.in_concat; exists (prints d); split; [apply in_map; eapply nth_error_In; eauto|exact I']|exact (in_concat i c q Ei I)]].
      destruct (expands_file h0 c (Kc _ (nth_error_In _ _ Ei)) _ I) as (sl & E). rewrite E in Ex. inversion Ex; subst. apply N. exact Logic.I.
    - intros i c q Ec. rewrite Ec. intros [p [[]|[-> I]]]. left. exact I.
    - intros i c q Ec I. rewrite Ec. split; [reflexivity|left; exact I].
    - intros i a [].
    - auto.
    - exact C.
    - intros q d E. exists d. tauto.
  Qed.

  Lemma all_step tr gs H i g a g' H' : all_alone tr gs H -> nth_error gs i = Some g -> go_step g H a g' H' ->
    all_alone (tr ++ [(i, a)]) (with_nth gs i g') H'.
  Proof.
    intros (Ln & Lh & ws & A & D & Ow & Fs & T & U & Cl & Kd) Eg St. assert (Li : i < List.length gs) by (apply nth_error_Some; congruence).
    destruct (nth_error cs i) as [c|] eqn:Ec; [|apply nth_error_None in Ec; lia].
    destruct (alone_step _ _ _ _ _ _ _ _ (A i g c Eg Ec) St) as (w' & Al & L & Sa & Ch & Sw & Oww & Fr & Ll & Cl' & Kd').
    assert (Bound : forall j d q, nth_error cs j = Some d -> sees (ws j) q -> q < List.length H).
    { intros j d q Ej Sq. assert (exists g, nth_error gs j = Some g) as [gj Gj].
      { destruct (nth_error gs j) as [gj|] eqn:Gj; [eauto|]. apply nth_error_None in Gj. assert (j < List.length cs) by (apply nth_error_Some; congruence). lia. }
      eapply sees_bound; [exact (A _ _ _ Gj Ej)|exact Sq]. }
    assert (OS : forall j d q, nth_error cs j = Some d -> owns (ws j) q -> sees (ws j) q).
    { intros j d q Ej Oq. assert (exists g, nth_error gs j = Some g) as [gj Gj].
      { destruct (nth_error gs j) as [gj|] eqn:Gj; [eauto|]. apply nth_error_None in Gj. assert (j < List.length cs) by (apply nth_error_Some; congruence). lia. }
      eapply owns_sees; [exact (A _ _ _ Gj Ej)|exact Oq]. }
    split; [rewrite with_nth_length by exact Li; exact Ln|]. split; [lia|]. exists (fun j => if j =? i then w' else ws j).
    split; [|split; [|split; [|split; [|split; [|split; [|split]]]]]].
    - intros j gj d. rewrite with_nth_spec by exact Li. destruct (Nat.eqb_spec j i) as [->|N].
      + intros E1 E2. rewrite Ec in E2. inversion E1; inversion E2; subst. exact Al.
      + intros E1 E2. apply (alone_env _ _ _ _ H); [|apply A; assumption]. intros q Sq. apply Fr; [exact (Bound _ _ _ E2 Sq)|].
        intros O. apply (D i j q); auto; apply nth_error_Some; congruence.
    - intros j k q Lj Lk Njk. destruct (nth_error cs j) as [cj|] eqn:Ej; [|apply nth_error_None in Ej; lia]. destruct (nth_error cs k) as [ck|] eqn:Ek; [|apply nth_error_None in Ek; lia].
      destruct (Nat.eqb_spec j i) as [->|Nj], (Nat.eqb_spec k i) as [->|Nk]; [lia| | |apply D; assumption].
      + intros O S. destruct (Oww _ O) as [O'|E]; [exact (D i k q Lj Lk Njk O' S)|]. pose proof (Bound _ _ _ Ek S). lia.
      + intros O S. destruct (Sw _ S) as [S'|E]; [exact (D j i q Lj Lk Njk O S')|]. pose proof (Bound _ _ _ Ej (OS _ _ _ Ej O)). lia.
    - intros j d q Ej. destruct (Nat.eqb_spec j i) as [->|N]; [|apply Ow; exact Ej]. intros O. destruct (Oww _ O) as [O'|E]; [apply (Ow i); assumption|right; lia].
    - intros j d q Ej I. destruct (Nat.eqb_spec j i) as [->|N]; [apply L|]; apply (Fs _ d); assumption.
    - intros j b I. apply in_app_or in I. destruct I as [I|[I|[]]].
      + destruct (T _ _ I) as (X & [p Y] & Z). split; [exact X|]. destruct (Nat.eqb_spec j i) as [->|N]; [|split; [exists p; exact Y|exact Z]]. split; [exists p; exact (any_le _ _ _ _ L Y)|].
        intros Cb. destruct (Z Cb) as [p' Y']. exists p'. exact (any_own_le _ _ _ _ L Y').
      + inversion I; subst. rewrite Nat.eqb_refl. split; [lia|]. split; [exact Sa|exact Ch].
    - intros p d E N. rewrite Fr; [apply U; assumption| |].
      + assert (p < List.length h0) by (apply nth_error_Some; congruence). lia.
      + intros O. destruct (Ow _ _ _ Ec O) as [I|I]; [apply N; eapply in_concat; eauto|]. assert (p < List.length h0) by (apply nth_error_Some; congruence). lia.
    - apply Cl'. exact Cl.
    - intros q d E. destruct (Kd _ _ E) as (d1 & E1 & I1). destruct (Kd' _ _ E1) as (d2 & E2 & I2). exists d2. split; [exact E2|tauto].
  Qed.

  Lemma all_schedule s tr s' : schedule s tr s' -> forall pre, all_alone pre (fst s) (snd s) -> all_alone (pre ++ tr) (fst s') (snd s').
  Proof.
    intros S. induction S as [s|gs h i g a g' h' tr s Eg St S IH]; intros pre A; [rewrite app_nil_r; exact A|].
    replace (pre ++ (i, a) :: tr) with ((pre ++ [(i, a)]) ++ tr) by (rewrite <- app_assoc; reflexivity). apply IH. cbn [fst snd] in *. eapply all_step; eauto.
  Qed.
End All.

(** ** Trees at other addresses *)
Section Carry.
  Variables (w : world) (h H : heap).
  Hypothesis A : agree w h H.
  Lemma carry_cell p q c : seen w p q -> nth_error h p = Some c -> exists d, nth_error H q = Some d /\ crel w c d.
  Proof. intros S E. destruct A as [X _]. destruct (X _ _ S) as (x & y & E1 & E2 & R). exists y. split; [exact E2|]. congruence. Qed.
  Lemma carry_expr p q o : prel w p q -> expr_at (nth_error h) p o -> expr_at (nth_error H) q o.
  Proof.
    destruct p as [p|], q as [q|], o as [e|]; cbn; try contradiction; auto. intros S E. destruct (carry_cell _ _ _ S E) as (d & Ed & R). destruct d; cbn in R; try contradiction. subst. exact Ed.
  Qed.
  Lemma carry_slice s t ws : srel w s t -> slice_at (nth_error h) s ws -> exists ws', slice_at (nth_error H) t ws' /\ Forall2 (wrel w) ws ws'.
  Proof.
    intros (Eo & El & Ec & R) [L Z]. destruct ws as [|x ws]; [exists []; split; [split; [rewrite <- El; exact L|left; reflexivity]|constructor]|].
    destruct Z as [Z|(a & b & E & La)]; [discriminate|]. destruct R as [[R _]|R]; [rewrite L in R; discriminate|].
    destruct (carry_cell _ _ _ R E) as (d & Ed & Rd). destruct d; cbn in Rd; try contradiction. apply Forall2_app_inv_l in Rd. destruct Rd as (a' & r & Fa & Fr & ->).
    change (x :: ws ++ b) with ((x :: ws) ++ b) in Fr. apply Forall2_app_inv_l in Fr. destruct Fr as (ws' & b' & Fw & Fb & ->). exists ws'. split; [|exact Fw]. split; [rewrite <- El, L; exact (HeapFacts.Forall2_length _ _ _ Fw)|].
    right. exists a', b'. split; [exact Ed|]. rewrite <- (HeapFacts.Forall2_length _ _ _ Fa), La. exact Eo.
  Qed.
  Lemma carry_value v : forall x y, wrel w x y -> value_at (nth_error h) x v -> value_at (nth_error H) y v.
  Proof.
    induction v as [s IH|e|z|] using value_ind'; intros x y R V; inversion V; subst.
    - destruct y as [[q|]| | | |]; cbn in R; try contradiction.
      match goal with E : nth_error h p = Some (CSExpr c) |- _ => destruct (carry_cell _ _ _ R E) as (d & Ed & Rd) end. destruct d as [t| | | | |]; cbn [crel] in Rd; try contradiction.
      destruct Rd as (R1 & R2 & R3 & R4 & R5 & R6 & R7 & R8).
      match goal with E : slice_at _ (h_args c) ws |- _ => destruct (carry_slice _ _ _ R6 E) as (ws' & Sl & Fw) end.
      eapply (at_sexpr _ q t s ws'); try congruence; eauto using carry_expr.
      + destruct (h_op c), (h_op t), (s_op s); cbn in *; try contradiction; try congruence; auto.
        match goal with E : nth_error h _ = Some (CParts _) |- _ => destruct (carry_cell _ _ _ R2 E) as (d & Ed' & Rd) end. destruct d; cbn in Rd; try contradiction. subst. exact Ed'.
      + match goal with E : Forall2 _ ws (s_args s) |- _ => rename E into Fv end. clear -IH Fw Fv. revert ws' Fw. induction Fv as [|a b l m X Fv IHv]; intros ws' Fw; inversion Fw; subst; constructor.
        * inversion IH; subst. eauto.
        * inversion IH; subst. apply IHv; assumption.
    - destruct y as [|[q|]| | |]; cbn in R; try contradiction.
      match goal with E : nth_error h p = Some _ |- _ => destruct (carry_cell _ _ _ R E) as (d & Ed & Rd) end. destruct d; cbn in Rd; try contradiction. subst. constructor. exact Ed.
    - destruct y; cbn in R; try contradiction. subst. constructor.
    - destruct y; cbn in R; try contradiction. constructor.
  Qed.
  Lemma carry_rule x y r : wrel w x y -> rule_at (nth_error h) x r -> rule_at (nth_error H) y r.
  Proof.
    intros R (p & c & -> & E & Vm & Vc & Eb & Vr). destruct y as [| | | |[q|]]; cbn in R; try contradiction. destruct (carry_cell _ _ _ R E) as (d & Ed & Rd). destruct d as [| |t| | |]; cbn [crel] in Rd; try contradiction.
    destruct Rd as (R1 & R2 & R3 & R4). exists q, t. split; [reflexivity|]. split; [exact Ed|]. split; [eapply carry_value; eauto|]. split; [eapply carry_expr; eauto|]. split; [congruence|eapply carry_value; eauto].
  Qed.
  Lemma carry_file p q f : fseen w p q -> file_at (nth_error h) p f -> file_at (nth_error H) q f.
  Proof.
    intros R (sl & ws & E & Sl & F). pose proof A as (_ & B & _). destruct (B _ _ R) as (s & t & E1 & Ed & Rd). rewrite E in E1. inversion E1; subst s.
    destruct (carry_slice _ _ _ Rd Sl) as (ws' & Sl' & Fw). exists t, ws'. split; [exact Ed|]. split; [exact Sl'|]. clear -A Fw F. revert ws' Fw. induction F as [|a b l m X F IH]; intros ws' Fw; inversion Fw; subst; constructor; eauto using carry_rule.
  Qed.
End Carry.

(** The cells of a tree at other addresses. *)
Section CarryCells.
  Variables (w : world) (h H : heap).
  Hypothesis A : agree w h H.
  Definition moved := Forall2 (any w).
  Lemma moved_app a b c d : moved a b -> moved c d -> moved (a ++ c) (b ++ d). Proof. apply Forall2_app. Qed.
  Lemma moved_concat css dss : Forall2 moved css dss -> moved (List.concat css) (List.concat dss).
  Proof. intros F. induction F; cbn [List.concat]; [constructor|]. apply moved_app; assumption. Qed.
  Lemma ptr_moved p q : prel w p q -> moved (ptr_cells p) (ptr_cells q).
  Proof. destruct p, q; cbn; try contradiction; repeat constructor; assumption. Qed.
  Lemma op_moved p q : orel w p q -> moved (op_cells p) (op_cells q).
  Proof. destruct p, q; cbn; try contradiction; repeat constructor; assumption. Qed.
  Lemma slice_moved s t : srel w s t -> moved (slice_cells s) (slice_cells t).
  Proof. intros (_ & L & E & R). unfold slice_cells. rewrite <- E, <- L. destruct (sl_cap s + sl_len s) eqn:Z; [constructor|]. destruct R as [[R1 R2]|R]; [rewrite R1, R2 in Z; discriminate|]. constructor; [left; exact R|constructor]. Qed.
  Lemma carry_value_cells : forall x c, value_cells (nth_error h) x c -> forall y, wrel w x y -> exists d, value_cells (nth_error H) y d /\ moved c d.
  Proof.
    fix IH 3. intros x c V. destruct V as [p s ws css E Sl F|p|z|]; intros y R.
    - destruct y as [[q|]| | | |]; cbn in R; try contradiction. destruct (carry_cell w h H A _ _ _ R E) as (d & Ed & Rd). destruct d as [t| | | | |]; cbn [crel] in Rd; try contradiction.
      destruct Rd as (R1 & R2 & R3 & R4 & R5 & R6 & R7 & R8). destruct (carry_slice w h H A _ _ _ R6 Sl) as (ws' & Sl' & Fw).
      assert (X : exists dss, Forall2 (value_cells (nth_error H)) ws' dss /\ Forall2 moved css dss).
      { clear -IH F Fw. revert ws' Fw. induction F as [|a b l m V F IHF]; intros ws' Fw; inversion Fw as [|? y ? ws2 Ra Fw2]; subst; [exists []; split; constructor|].
        destruct (IH _ _ V _ Ra) as (d & D & M). destruct (IHF _ Fw2) as (dss & Ds & Ms). exists (d :: dss). split; constructor; assumption. }
      destruct X as (dss & D & M). eexists. split; [exact (vc_sexpr _ q t ws' dss Ed Sl' D)|]. constructor; [left; exact R|].
      apply moved_app; [apply op_moved; exact R2|]. apply moved_app; [apply ptr_moved; exact R4|]. apply moved_app; [apply ptr_moved; exact R5|]. apply moved_app; [apply slice_moved; exact R6|apply moved_concat; exact M].
    - destruct y; cbn in R; try contradiction. eexists. split; [constructor|apply ptr_moved; exact R].
    - destruct y; cbn in R; try contradiction. eexists. split; constructor.
    - destruct y; cbn in R; try contradiction. eexists. split; constructor.
  Qed.
  Lemma carry_rule_cells x c : rule_cells (nth_error h) x c -> forall y, wrel w x y -> exists d, rule_cells (nth_error H) y d /\ moved c d.
  Proof.
    intros (p & s & m & r & -> & E & Vm & Vr & ->) y R. destruct y as [| | | |[q|]]; cbn in R; try contradiction. destruct (carry_cell w h H A _ _ _ R E) as (d & Ed & Rd).
    destruct d as [| |t| | |]; cbn [crel] in Rd; try contradiction. destruct Rd as (R1 & R2 & R3 & R4). destruct (carry_value_cells _ _ Vm _ R1) as (m' & Vm' & Mm). destruct (carry_value_cells _ _ Vr _ R4) as (r' & Vr' & Mr).
    eexists. split; [exists q, t, m', r'; auto 10|]. constructor; [left; exact R|]. apply moved_app; [exact Mm|]. apply moved_app; [apply ptr_moved; exact R2|exact Mr].
  Qed.
  Lemma carry_file_cells p q c : fseen w p q -> file_cells (nth_error h) p c -> exists d, file_cells (nth_error H) q d /\ moved c d.
  Proof.
    intros R (sl & ws & css & E & Sl & F & ->). pose proof A as (_ & B & _). destruct (B _ _ R) as (s & t & E1 & Ed & Rd). rewrite E in E1. inversion E1; subst s.
    destruct (carry_slice w h H A _ _ _ Rd Sl) as (ws' & Sl' & Fw).
    assert (X : exists dss, Forall2 (rule_cells (nth_error H)) ws' dss /\ Forall2 moved css dss).
    { clear -A F Fw. revert ws' Fw. induction F as [|a b l m V F IHF]; intros ws' Fw; inversion Fw as [|? y ? ws2 Ra Fw2]; subst; [exists []; split; constructor|].
      destruct (carry_rule_cells _ _ V _ Ra) as (d & D & M). destruct (IHF _ Fw2) as (dss & Ds & Ms). exists (d :: dss). split; constructor; assumption. }
    destruct X as (dss & D & M). eexists. split; [exists t, ws', dss; auto 10|]. constructor; [right; exact R|]. apply moved_app; [apply slice_moved; exact Rd|apply moved_concat; exact M].
  Qed.
  Lemma moved_nodup c d : moved c d -> NoDup c -> NoDup d.
  Proof.
    intros M. induction M as [|a b c d S M IH]; intros N; inversion N as [|? ? Na Nc]; subst; constructor; auto. intros I. apply Na. destruct A as (_ & _ & B & _). clear -S M I B.
    induction M as [|x y c d S' M IH]; cbn in *; [contradiction|]. destruct I as [->|I]; [left; apply (B _ _ _ _ S' S); reflexivity|right; auto].
  Qed.
  Lemma moved_in c d b : moved c d -> In b d -> exists a, In a c /\ any w a b.
  Proof. intros M. induction M as [|x y c d S M IH]; cbn; [contradiction|]. intros [->|I]; [eauto|]. destruct (IH I) as (a & Ia & Sa). eauto. Qed.
End CarryCells.

(** ** Every schedule ends *)
Definition next (s' s : list goroutine * heap) : Prop := exists a, schedule s [a] s'.
Lemma next_step s' s : next s' s -> exists i g a g' h', nth_error (fst s) i = Some g /\ go_step g (snd s) a g' h' /\ s' = (with_nth (fst s) i g', h').
Proof. intros (a & S). inversion S as [|gs h i g x g' h' tr s0 Eg St S']; subst. inversion S'; subst. cbn. eauto 10. Qed.

Inductive ends : goroutine -> Prop := ends_intro g : (forall h a g' h', go_step g h a g' h' -> ends g') -> ends g.
Lemma all_end g : ends g.
Proof. induction g as [r|p k IH|c k IH|p c k IH]; constructor; intros h a g' h' S; inversion S; subst; auto. Qed.
Definition next_all (gs' gs : list goroutine) : Prop :=
  exists i g h a g' h', nth_error gs i = Some g /\ go_step g h a g' h' /\ gs' = with_nth gs i g'.
Lemma cons_end g : ends g -> forall gs, Acc next_all gs -> Acc next_all (g :: gs).
Proof.
  intros E. induction E as [g _ IHg]. intros gs A. induction A as [gs A IHs]. constructor. intros gs' (i & g1 & h & a & g' & h' & Eg & St & ->).
  destruct i as [|i]; cbn in Eg.
  - inversion Eg; subst. change (with_nth (g1 :: gs) 0 g') with (g' :: gs). eapply IHg; [exact St|]. constructor. exact A.
  - change (with_nth (g :: gs) (S i) g') with (g :: with_nth gs i g'). apply IHs. exists i, g1, h, a, g', h'. auto.
Qed.
Lemma lists_end gs : Acc next_all gs.
Proof.
  induction gs as [|g gs IH]; [|apply cons_end; [apply all_end|exact IH]]. constructor. intros gs' (i & g1 & h & a & g' & h' & Eg & _). destruct i; discriminate.
Qed.
Lemma schedules_end : forall s, Acc next s.
Proof.
  intros [gs h]. revert h. induction (lists_end gs) as [gs _ IH]. intros h. constructor. intros s' N. destruct (next_step _ _ N) as (i & g & a & g' & h' & E & St & ->).
  apply IH. exists i, g, h, a, g', h'. auto.
Qed.
(** No deadlock: as long as one is not done, something can happen. *)
Definition is_done (g : goroutine) : Prop := exists r, g = Done r.
Lemma done_dec g : is_done g \/ ~ is_done g.
Proof. destruct g; [left; eexists; reflexivity|right; intros [r E]; discriminate..]. Qed.
Lemma not_done_steps g h : ~ is_done g -> exists a g' h', go_step g h a g' h'.
Proof. destruct g as [r|p k|c k|p c k]; intros N; [destruct N; eexists; reflexivity|eexists _, _, _; constructor..]. Qed.
Lemma schedule_app s tr s' tr' s'' : schedule s tr s' -> schedule s' tr' s'' -> schedule s (tr ++ tr') s''.
Proof. intros S T. induction S; [exact T|]. cbn [app]. econstructor; eauto. Qed.
Lemma can_finish s : exists tr s', schedule s tr s' /\ Forall is_done (fst s').
Proof.
  induction (schedules_end s) as [s _ IH]. destruct s as [gs h].
  assert (X : Forall is_done gs \/ exists i g, nth_error gs i = Some g /\ ~ is_done g).
  { clear. induction gs as [|g gs IH]; [left; constructor|]. destruct (done_dec g) as [D|D]; [|right; exists 0, g; auto].
    destruct IH as [IH|(i & g' & E & N)]; [left; constructor; assumption|right; exists (S i), g'; auto]. }
  destruct X as [X|(i & g & E & N)]; [exists [], (gs, h); split; [constructor|exact X]|].
  destruct (not_done_steps g h N) as (a & g' & h' & St). destruct (IH (with_nth gs i g', h')) as (tr & s' & Sc & D).
  - exists (i, a). econstructor; [exact E|exact St|constructor].
  - exists ((i, a) :: tr), s'. split; [econstructor; eauto|exact D].
Qed.
