(** How much work the grammar of rules.peg makes the parser do. *)
From Verif Require Import Text GoAst Ast Utf8 Peg Grammar PegPoints PegCost.
From Coq Require Import NArith Arith Bool Lia.
Open Scope N_scope.

Notation CST := (cst the_grammar).
Notation CSQ := (csq the_grammar).
Notation CCH := (cch the_grammar).
Notation CSR := (csr the_grammar).

(** ** Inversion *)
Lemma i_action a e l o c m : CST (PAction a e) l o c m -> exists c0, c = 1 + c0 /\ CST e l o c0 m.
Proof. intros H. inversion H; subst. eauto. Qed.
Lemma i_label n e l o c m : CST (PLabel n e) l o c m -> exists c0, c = 1 + c0 /\ CST e l o c0 m.
Proof. intros H. inversion H; subst. eauto. Qed.
Lemma i_choice es l o c m : CST (PChoice es) l o c m -> exists c0, c = 1 + c0 /\ CCH es l o c0 m.
Proof. intros H. inversion H; subst. eauto. Qed.
Lemma i_seq es l o c m : CST (PSeq es) l o c m -> exists c0, c = 1 + c0 /\ CSQ es l o c0 m.
Proof. intros H. inversion H; subst. eauto. Qed.
Lemma i_not e l o c m : CST (PNot e) l o c m -> exists o0 c0, c = 1 + c0 /\ CST e l o0 c0 m /\ o = match o0 with Some _ => None | None => Some l end.
Proof. intros H. inversion H; subst. eauto. Qed.
Lemma i_opt e l o c m : CST (POpt e) l o c m -> exists o0 c0, c = 1 + c0 /\ CST e l o0 c0 m /\ o = Some (match o0 with Some l' => l' | None => l end).
Proof. intros H. inversion H; subst. eauto. Qed.
Lemma i_star e l o c m : CST (PStar e) l o c m -> exists k l' c0, c = 1 + c0 /\ CSR e l k l' c0 m /\ o = Some l'.
Proof. intros H. inversion H; subst. eauto 6. Qed.
Lemma i_plus e l o c m : CST (PPlus e) l o c m -> exists k l' c0, c = 1 + c0 /\ CSR e l k l' c0 m /\ o = match k with O => None | S _ => Some l' end.
Proof. intros H. inversion H; subst. eauto 6. Qed.
Lemma i_ref n b l o c m : the_grammar n = Some b -> CST (PRef n) l o c m -> exists c0, c = 1 + c0 /\ CST b l o c0 m.
Proof. intros G H. inversion H; subst. rewrite G in *. match goal with K : Some _ = Some _ |- _ => inversion K; subst end. eauto. Qed.
Lemma i_nil l o c m : CSQ [] l o c m -> o = Some l /\ c = 0 /\ m = len l.
Proof. intros H. inversion H; subst. auto. Qed.
Lemma i_cons e es l o c m : CSQ (e :: es) l o c m ->
  (CST e l None c m /\ o = None) \/
  (exists l1 c1 m1 c2 m2, CST e l (Some l1) c1 m1 /\ CSQ es l1 o c2 m2 /\ c = c1 + c2 /\ m = N.min m1 m2).
Proof. intros H. inversion H; subst; [right|left; auto]. eauto 10. Qed.
Lemma i_hnil l o c m : CCH [] l o c m -> o = None /\ c = 0 /\ m = len l.
Proof. intros H. inversion H; subst. auto. Qed.
Lemma i_hcons e es l o c m : CCH (e :: es) l o c m ->
  (exists l1, CST e l (Some l1) c m /\ o = Some l1) \/
  (exists c1 m1 c2 m2, CST e l None c1 m1 /\ CCH es l o c2 m2 /\ c = c1 + c2 /\ m = N.min m1 m2).
Proof. intros H. inversion H; subst; [left|right]; eauto 10. Qed.
Lemma i_star_loop e l k l' c m : CSR e l k l' c m ->
  (k = 0%nat /\ l' = l /\ CST e l None c m) \/
  (exists l1 k1 c1 m1 c2 m2, k = S k1 /\ CST e l (Some l1) c1 m1 /\ CSR e l1 k1 l' c2 m2 /\ c = c1 + c2 /\ m = N.min m1 m2).
Proof. intros H. inversion H; subst; [left|right]; eauto 12. Qed.

Lemma cst_m e l o c m : CST e l o c m -> m <= len l.
Proof. intros H. destruct (proj1 (cost_len the_grammar) _ _ _ _ _ H) as [X _]. exact X. Qed.
Lemma cst_ok e l l' c m : CST e l (Some l') c m -> m <= len l' <= len l.
Proof. intros H. destruct (proj1 (cost_len the_grammar) _ _ _ _ _ H) as [_ X]. exact (X _ eq_refl). Qed.
Lemma csq_m es l o c m : CSQ es l o c m -> m <= len l.
Proof. intros H. destruct (proj1 (proj2 (cost_len the_grammar)) _ _ _ _ _ H) as [X _]. exact X. Qed.
Lemma csq_ok es l l' c m : CSQ es l (Some l') c m -> m <= len l' <= len l.
Proof. intros H. destruct (proj1 (proj2 (cost_len the_grammar)) _ _ _ _ _ H) as [_ X]. exact (X _ eq_refl). Qed.
Lemma csr_m e l k l' c m : CSR e l k l' c m -> m <= len l' <= len l.
Proof. intros H. apply (proj2 (proj2 (proj2 (cost_len the_grammar)))) in H. exact H. Qed.
Lemma csr_det e l k l' c m k2 l2 c2 m2 : CSR e l k l' c m -> CSR e l k2 l2 c2 m2 -> k = k2 /\ l' = l2 /\ c = c2 /\ m = m2.
Proof. intros H K. exact (proj2 (proj2 (proj2 (cost_det the_grammar))) _ _ _ _ _ _ H _ _ _ _ K). Qed.

(** The first character. *)
Definition starts (P : N -> bool) (l : list N) : bool := match l with x :: _ => P x | [] => false end.
Lemma starts_cons P l : starts P l = true -> exists x t, l = x :: t /\ P x = true.
Proof. destruct l; [discriminate|]. cbn. eauto. Qed.

(** ** Literals *)
Lemma lit_head r rs w l o c m : CST (PLit (r :: rs) w) l o c m -> c = 1 /\
  ((o = None /\ m = len l /\ starts (N.eqb r) l = false) \/
   (exists t, l = r :: t /\ o = strip rs t /\ m = common rs t)).
Proof.
  intros H. inversion H; subst. split; [reflexivity|]. cbn [strip common]. destruct l as [|x t]; [left; auto|].
  cbn [starts]. rewrite (N.eqb_sym r x). destruct (N.eqb_spec x r); [right; subst; eauto|left; auto].
Qed.
Lemma lit_one r w l o c m : CST (PLit [r] w) l o c m -> c = 1 /\
  ((o = None /\ m = len l /\ starts (N.eqb r) l = false) \/ (exists t, l = r :: t /\ o = Some t /\ m = len t)).
Proof. intros H. apply lit_head in H. exact H. Qed.

(** ** Classes and repetitions of them *)
Lemma class_look n cs rs inv l o c m : CST (PClass n cs rs inv) l o c m -> c = 1 /\
  ((o = None /\ m = len l /\ starts (hit cs rs inv) l = false) \/
   (exists x t, l = x :: t /\ hit cs rs inv x = true /\ o = Some t /\ m = len t)).
Proof. intros H. inversion H; subst; split; try reflexivity; cbn [starts]; eauto 8. Qed.
Fixpoint run_len (P : N -> bool) (l : list N) : N := match l with x :: t => if P x then 1 + run_len P t else 0 | [] => 0 end.
Fixpoint run_rest (P : N -> bool) (l : list N) : list N := match l with x :: t => if P x then run_rest P t else l | [] => [] end.
Lemma run_split P l : len l = len (run_rest P l) + run_len P l /\ starts P (run_rest P l) = false.
Proof.
  induction l as [|x t [E S]]; [cbn; auto|]. cbn [run_rest run_len]. destruct (P x) eqn:H; rewrite ?len_cons; [split; [lia|exact S]|].
  split; [lia|exact H].
Qed.
Lemma class_star n cs rs inv l k l' c m : CSR (PClass n cs rs inv) l k l' c m ->
  l' = run_rest (hit cs rs inv) l /\ m = len l' /\ c = run_len (hit cs rs inv) l + 1 /\ N.of_nat k = run_len (hit cs rs inv) l.
Proof.
  revert k l' c m. induction l as [|x t IH]; intros k l' c m H; apply i_star_loop in H; destruct H as [(-> & -> & H)|(l1 & k1 & c1 & m1 & c2 & m2 & -> & H & K & -> & ->)];
    apply class_look in H; destruct H as [-> [(E & -> & S)|(y & u & E & Y & E2 & ->)]]; try discriminate.
  - auto.
  - cbn [starts] in S. cbn [run_rest run_len]. rewrite S. auto.
  - inversion E; subst y u. inversion E2; subst l1. cbn [run_rest run_len]. rewrite Y. apply IH in K. destruct K as (-> & -> & -> & Kk).
    destruct (run_split (hit cs rs inv) t). repeat split; lia.
Qed.

(** ** A repetition pays for itself *)
Lemma star_gen e (B K k0 : N) (sl cr : list N -> N -> Prop) (bad : list N -> Prop) :
  (forall l l1 c m, len l < B -> CST e l (Some l1) c m -> c <= K * (len l - m) /\ m = len l1 \/ bad l1 /\ (forall y, cr l1 y -> c + y <= K * (len l - m))) ->
  (forall l c m, len l < B -> CST e l None c m -> forall x, sl l x -> c + x <= K * (len l - m) + k0) ->
  (forall l o c m, len l < B -> bad l -> CST e l o c m -> o = None /\ forall x, sl l x -> exists y, cr l y /\ c + x <= y + k0) ->
  forall l k l' c m, len l < B -> CSR e l k l' c m ->
    (forall x, sl l' x -> c + x <= K * (len l - m) + k0) /\
    exists cf mf, CST e l' None cf mf /\ (m = mf \/ bad l' /\ m <= mf).
Proof.
  intros Hok Hno Hbad l k. revert l. induction k as [|k IH]; intros l l' c m LB H; apply i_star_loop in H; destruct H as [(E & -> & H)|(l1 & k1 & c1 & m1 & c2 & m2 & E & H & R & -> & ->)]; try discriminate.
  - split; [exact (Hno _ _ _ LB H)|]. eauto.
  - inversion E; subst k1. pose proof (csr_m _ _ _ _ _ _ R) as Rm. pose proof (cst_ok _ _ _ _ _ H) as Hm. assert (LB1 : len l1 < B) by lia. destruct (Hok _ _ _ _ LB H) as [[C M]|[Bd C]].
    + destruct (IH _ _ _ _ LB1 R) as [P (cf & mf & F & Q)]. split.
      * intros x X. specialize (P x X). rewrite N.min_r by lia. nia.
      * exists cf, mf. split; [exact F|]. rewrite N.min_r by lia. exact Q.
    + apply i_star_loop in R. destruct R as [(E1 & -> & R)|(l2 & k2 & c3 & m3 & c4 & m4 & _ & R & _)]; [|apply Hbad in R; [|exact LB1|exact Bd]; destruct R; discriminate].
      pose proof (cst_m _ _ _ _ _ R). destruct (Hbad _ _ _ _ LB1 Bd R) as [_ P]. split.
      * intros x X. destruct (P x X) as (y & Y & Z). specialize (C y Y). assert (K * (len l - m1) <= K * (len l - N.min m1 m2)) by (apply N.mul_le_mono_l; lia). lia.
      * exists c2, m2. split; [exact R|]. right. split; [exact Bd|lia].
Qed.
(** When each round looks no further than it goes. *)
Lemma star_simple e (K k0 : N) (Q : list N -> N -> Prop) :
  (forall l l1 c m, CST e l (Some l1) c m -> c <= K * (len l - len l1) /\ m = len l1 /\ len l1 < len l) ->
  (forall l c m, CST e l None c m -> c <= K * (len l - m) + k0 /\ Q l m) ->
  forall l k l' c m, CSR e l k l' c m -> c <= K * (len l - m) + k0 /\ Q l' m /\ match k with O => l' = l | S _ => len l' < len l end.
Proof.
  intros Hok Hno l k. revert l. induction k as [|k IH]; intros l l' c m H; apply i_star_loop in H; destruct H as [(E & -> & H)|(l1 & k1 & c1 & m1 & c2 & m2 & E & H & R & -> & ->)]; try discriminate.
  - destruct (Hno _ _ _ H). auto.
  - inversion E; subst k1. pose proof (csr_m _ _ _ _ _ _ R) as Rm. apply IH in R. destruct R as (C & q & _). destruct (Hok _ _ _ _ H) as (C1 & -> & L).
    rewrite N.min_r by lia. repeat split; [nia|exact q|lia].
Qed.

(** ** Tactics: one step of inversion *)
Lemma i_cons_none e es l c m : CSQ (e :: es) l None c m ->
  CST e l None c m \/ (exists l1 c1 m1 c2 m2, CST e l (Some l1) c1 m1 /\ CSQ es l1 None c2 m2 /\ c = c1 + c2 /\ m = N.min m1 m2).
Proof. intros H. apply i_cons in H. tauto. Qed.
Ltac st H :=
  lazymatch type of H with
  | cst _ (PAction _ _) _ _ _ _ => apply i_action in H; destruct H as (? & -> & H)
  | cst _ (PLabel _ _) _ _ _ _ => apply i_label in H; destruct H as (? & -> & H)
  | cst _ (PChoice _) _ _ _ _ => apply i_choice in H; destruct H as (? & -> & H)
  | cst _ (PSeq _) _ _ _ _ => apply i_seq in H; destruct H as (? & -> & H)
  end.
Ltac lits H := unfold lit, g_eol in H; repeat match type of H with context [runes ?s] => let r := eval vm_compute in (runes s) in change (runes s) with r in H end.

(** ** Blank space and comments *)
Definition blank : N -> bool := hit [32; 9; 13; 10] [] false.
Definition SK (l l' : list N) (m : N) : Prop := exists k c, CSR g_skip l k l' c m.
Lemma skip_one l o c m : CST g_skip l o c m ->
  (o = None /\ starts blank l = false /\ c <= (len l - m) + 5 /\ (m = len l \/ starts (N.eqb 47) l = true)) \/
  (exists l1, o = Some l1 /\ len l1 < len l /\ m = len l1 /\ c <= 5 * (len l - len l1)).
Proof.
  intros H. unfold g_skip in H. st H. apply i_hcons in H. destruct H as [(l1 & H & ->)|(c1 & m1 & c2 & m2 & H & K & -> & ->)].
  - right. exists l1. split; [reflexivity|]. unfold g_comment in H. lits H. st H. apply i_cons in H. destruct H as [[_ E]|(l2 & c3 & m3 & c4 & m4 & H & K & -> & ->)]; [discriminate|].
    apply lit_head in H. destruct H as [-> [(E & _)|(t & -> & E & ->)]]; [discriminate|]. symmetry in E. destruct (strip_len [47] t) as [_ X]. destruct (X _ E) as [X1 X2]. change (len [47]) with 1 in X2.
    apply i_cons in K. destruct K as [[_ E2]|(l3 & c5 & m5 & c6 & m6 & S & K & -> & ->)]; [discriminate|]. apply i_star in S. destruct S as (k & l' & c0 & -> & S & E2). inversion E2; subst l'.
    apply class_star in S. destruct S as (-> & -> & -> & _). apply i_cons in K. destruct K as [[_ E3]|(l4 & c7 & m7 & c8 & m8 & S & K & -> & ->)]; [discriminate|].
    apply lit_one in S. destruct S as [-> [(E3 & _)|(t4 & E3 & E4 & ->)]]; [discriminate|]. inversion E4; subst t4. apply i_nil in K. destruct K as (E5 & -> & ->). inversion E5; subst l4.
    destruct (run_split (hit [10] [] true) l2) as [R _]. rewrite E3 in R. rewrite E3, !len_cons in *. repeat split; lia.
  - apply i_hcons in K. assert (Hc : c1 <= (len l - m1) + 3 /\ (m1 = len l \/ starts (N.eqb 47) l = true) /\ m1 <= len l).
    { pose proof (cst_m _ _ _ _ _ H) as M. unfold g_comment in H. lits H. st H. apply i_cons in H. destruct H as [[H _]|(l2 & c3 & m3 & c4 & m4 & H & K2 & -> & ->)].
      - apply lit_head in H. destruct H as [-> [(_ & -> & _)|(t & -> & _ & ->)]]; [lia|]. cbn [starts]. destruct (strip_len [47] t) as [X _]. rewrite len_cons in *. repeat split; [lia|right; reflexivity|lia].
      - apply lit_head in H. destruct H as [-> [(E & _)|(t & -> & E & ->)]]; [discriminate|]. symmetry in E. destruct (strip_len [47] t) as [_ X]. destruct (X _ E) as [X1 X2]. change (len [47]) with 1 in X2.
        split; [|split; [right; reflexivity|exact M]].
        apply i_cons in K2. destruct K2 as [[S _]|(l3 & c5 & m5 & c6 & m6 & S & K2 & -> & ->)]; apply i_star in S; destruct S as (k & l' & c0 & -> & S & E2); [discriminate|]. inversion E2; subst l'.
        apply class_star in S. destruct S as (-> & -> & -> & _). destruct (run_split (hit [10] [] true) l2) as [R _].
        apply i_cons in K2. destruct K2 as [[S _]|(l4 & c7 & m7 & c8 & m8 & S & K2 & -> & ->)].
        + apply lit_one in S. destruct S as [-> [(_ & -> & _)|(t4 & E3 & E4 & ->)]]; [|discriminate]. rewrite !len_cons. lia.
        + apply i_nil in K2. destruct K2; discriminate. }
    destruct K as [(l1 & K & ->)|(c3 & m3 & c4 & m4 & K & K2 & -> & ->)].
    + right. exists l1. split; [reflexivity|]. apply class_look in K. destruct K as [-> [(E & _)|(x & t & -> & Hx & E & ->)]]; [discriminate|]. inversion E; subst t.
      destruct Hc as (C1 & [->|C2] & C3).
      * rewrite len_cons in *. repeat split; lia.
      * cbn [starts] in C2. apply N.eqb_eq in C2. subst x. discriminate.
    + left. apply class_look in K. destruct K as [-> [(_ & -> & S)|(x & t & _ & _ & E & _)]]; [|discriminate]. apply i_hnil in K2. destruct K2 as (-> & -> & ->).
      destruct Hc as (C1 & C2 & C3). repeat split; [exact S|lia|]. destruct C2 as [->|C2]; [left; lia|right; exact C2].
Qed.
Lemma skip_loop l k l' c m : CSR g_skip l k l' c m ->
  c <= 5 * (len l - m) + 5 /\ (m = len l' \/ starts (N.eqb 47) l' = true) /\ starts blank l' = false /\ (exists c0, CST g_skip l' None c0 m) /\
  match k with O => l' = l | S _ => len l' < len l end.
Proof.
  revert l l' c m. induction k as [|k IH]; intros l l' c m H; apply i_star_loop in H; destruct H as [(E & -> & H)|(l1 & k1 & c1 & m1 & c2 & m2 & E & H & R & -> & ->)]; try discriminate.
  - pose proof (cst_m _ _ _ _ _ H) as Hm. pose proof H as H0. apply skip_one in H. destruct H as [(_ & S & C & M)|(l1 & E1 & _)]; [|discriminate]. repeat split; [lia|exact M|exact S|eauto].
  - inversion E; subst k1. pose proof (csr_m _ _ _ _ _ _ R) as Rm. apply IH in R. destruct R as (C & M & S & (c0 & F) & _).
    apply skip_one in H. destruct H as [(E1 & _)|(l2 & E1 & L & -> & C1)]; [discriminate|]. inversion E1; subst l2.
    rewrite N.min_r by lia. repeat split; [lia|exact M|exact S|eauto|lia].
Qed.
Lemma SK_det l l1 m1 l2 m2 : SK l l1 m1 -> SK l l2 m2 -> l1 = l2 /\ m1 = m2.
Proof. intros (k & c & H) (k2 & c2 & H2). destruct (csr_det _ _ _ _ _ _ _ _ _ _ H H2) as (_ & E & _ & E2). auto. Qed.
Lemma SK_facts l l' m : SK l l' m -> m <= len l' <= len l /\ (m = len l' \/ starts (N.eqb 47) l' = true) /\ starts blank l' = false /\ SK l' l' m /\ (l' = l \/ len l' < len l).
Proof.
  intros (k & c & H). pose proof (csr_m _ _ _ _ _ _ H) as M. apply skip_loop in H. destruct H as (_ & A & B & (c0 & F) & K). split; [exact M|]. split; [exact A|]. split; [exact B|].
  split; [exists 0%nat, c0; apply r_stop; exact F|]. destruct k; auto.
Qed.
Lemma SK_not47 l l' m : SK l l' m -> starts (N.eqb 47) l' = false -> m = len l'.
Proof. intros H S. apply SK_facts in H. destruct H as (_ & [->|H] & _); [reflexivity|congruence]. Qed.
(** Nothing to skip. *)
Lemma SK_none l l' m : SK l l' m -> starts (fun x => blank x || (x =? 47)) l = false -> l' = l /\ m = len l.
Proof.
  intros (k & c & H) S. assert (S1 : starts blank l = false /\ starts (N.eqb 47) l = false).
  { destruct l as [|x t]; [auto|]. cbn [starts] in *. apply orb_false_iff in S. rewrite N.eqb_sym. exact S. }
  destruct S1 as [S1 S2]. apply i_star_loop in H. destruct H as [(_ & -> & H)|(l1 & k1 & c1 & m1 & c2 & m2 & _ & H & _)].
  - apply skip_one in H. destruct H as [(_ & _ & _ & [M|M])|(l1 & E1 & _)]; [auto|congruence|discriminate].
  - exfalso. unfold g_skip in H. st H. apply i_hcons in H. destruct H as [(l2 & H & E)|(c3 & m3 & c4 & m4 & _ & H & _)].
    + unfold g_comment in H. lits H. st H. apply i_cons in H. destruct H as [[_ E0]|(l3 & c5 & m5 & c6 & m6 & H & _)]; [discriminate|].
      apply lit_head in H. destruct H as [_ [(E0 & _)|(t & -> & _)]]; discriminate.
    + apply i_hcons in H. destruct H as [(l2 & H & _)|(c5 & m5 & c6 & m6 & _ & H & _)]; [|apply i_hnil in H; destruct H; discriminate].
      apply class_look in H. destruct H as [_ [(E0 & _)|(y & t & -> & Hx & _)]]; [discriminate|]. cbn [starts] in S1. unfold blank in S1. congruence.
Qed.
Lemma ws0 l o c m : CST g_ws0 l o c m -> exists l', o = Some l' /\ SK l l' m /\ c <= 5 * (len l - m) + 6.
Proof. intros H. apply i_star in H. destruct H as (k & l' & c0 & -> & H & ->). exists l'. split; [reflexivity|]. split; [exists k, c0; exact H|]. apply skip_loop in H. lia. Qed.
Lemma ws1 l o c m : CST g_ws1 l o c m -> exists l', SK l l' m /\ c <= 5 * (len l - m) + 6 /\ ((o = None /\ l' = l) \/ (o = Some l' /\ len l' < len l)).
Proof.
  intros H. apply i_plus in H. destruct H as (k & l' & c0 & -> & H & ->). exists l'. split; [exists k, c0; exact H|]. apply skip_loop in H. destruct H as (C & _ & _ & _ & K). split; [lia|]. destruct k; auto.
Qed.

(** ** Identifiers *)
Definition word : N -> bool := hit [95] [(97, 122); (65, 90); (48, 57)] false.
Definition lower : N -> bool := hit [] [(97, 122)] false.
Definition idr (l : list N) : list N := match l with x :: t => if lower x then run_rest word t else l | [] => [] end.
Definition idl (l : list N) : N := len l - len (idr l).
Lemma idr_word l : starts lower l = true -> starts word (idr l) = false /\ len l = len (idr l) + idl l /\ 1 <= idl l.
Proof.
  destruct l as [|x t]; [discriminate|]. cbn [starts]. unfold idl. cbn [idr]. intros ->. destruct (run_split word t) as [A B]. rewrite len_cons. split; [exact B|lia].
Qed.
Lemma idr_none l : starts lower l = false -> idr l = l /\ idl l = 0.
Proof. unfold idl. destruct l as [|x t]; cbn [starts idr]; [auto|]. intros ->. split; [reflexivity|lia]. Qed.
Lemma ident es l o c m : CSQ (g_lower :: PStar g_word :: es) l o c m ->
  (starts lower l = false /\ o = None /\ c = 1 /\ m = len l) \/
  (starts lower l = true /\ exists c2, CSQ es (idr l) o c2 m /\ c = idl l + 2 + c2).
Proof.
  intros H. apply i_cons in H. destruct H as [[H ->]|(l1 & c1 & m1 & c2 & m2 & H & K & -> & ->)]; apply class_look in H; destruct H as [-> [(E & M & S)|(x & t & -> & Hx & E & M)]]; try discriminate.
  - left. auto.
  - right. inversion E; subst l1. split; [exact Hx|]. apply i_cons in K. destruct K as [[K ->]|(l2 & c3 & m3 & c4 & m4 & K & Q & -> & ->)]; apply i_star in K; destruct K as (k & l' & c0 & -> & K & E2); [discriminate|]. inversion E2; subst l2.
    apply class_star in K. fold word in K. destruct K as (-> & -> & -> & _). destruct (run_split word t) as [R _]. assert (E3 : idr (x :: t) = run_rest word t) by (unfold lower in *; cbn [idr]; unfold lower; rewrite Hx; reflexivity).
    exists c4. rewrite E3. pose proof (csq_m _ _ _ _ _ Q). subst m1. replace (N.min (len t) (N.min (len (run_rest word t)) m4)) with m4 by lia. split; [exact Q|].
    unfold idl. rewrite E3, len_cons. lia.
Qed.

(** ** Opcodes *)
Lemma op_part a l o c m : CST (g_OpPart a) l o c m -> c <= run_len word l + 3 /\ m = len (run_rest word l) /\
  ((o = None /\ run_len word l = 0 /\ m = len l) \/ (o = Some (run_rest word l) /\ 1 <= run_len word l)).
Proof.
  intros H. unfold g_OpPart in H. st H. apply i_plus in H. destruct H as (k & l' & c0 & -> & H & ->). apply class_star in H. fold word in H. destruct H as (-> & -> & -> & Kk).
  destruct (run_split word l) as [R _]. split; [lia|]. split; [reflexivity|]. destruct k; [left|right]; repeat split; lia.
Qed.
Lemma alt_items l k l' c m : CSR (PSeq [lit "|" """|"""; g_OpPart onSExpr40]) l k l' c m -> c <= 10 * (len l - m) + 10 /\ (m = len l' \/ starts (N.eqb 124) l' = true) /\ match k with O => l' = l | S _ => len l' < len l end.
Proof.
  apply star_simple with (Q := fun l' m => m = len l' \/ starts (N.eqb 124) l' = true).
  - clear. intros l l1 c m H. lits H. st H. apply i_cons in H. destruct H as [[_ E]|(l2 & c1 & m1 & c2 & m2 & H & K & -> & ->)]; [discriminate|].
    apply lit_one in H. destruct H as [-> [(E & _)|(t & -> & E & ->)]]; [discriminate|]. inversion E; subst l2.
    apply i_cons in K. destruct K as [[_ E2]|(l2 & c3 & m3 & c4 & m4 & H & K & -> & ->)]; [discriminate|]. apply op_part in H. destruct H as (C & -> & [(E2 & _)|(E2 & L)]); [discriminate|]. inversion E2; subst l2.
    apply i_nil in K. destruct K as (E3 & -> & ->). inversion E3; subst l1. destruct (run_split word t) as [R _]. rewrite len_cons. repeat split; lia.
  - clear. intros l c m H. lits H. st H. apply i_cons in H. destruct H as [[H _]|(l2 & c1 & m1 & c2 & m2 & H & K & -> & ->)].
    + apply lit_one in H. destruct H as [-> [(_ & -> & _)|(t & _ & E & _)]]; [|discriminate]. split; [lia|left; reflexivity].
    + apply lit_one in H. destruct H as [-> [(E & _)|(t & -> & E & ->)]]; [discriminate|]. inversion E; subst l2. split; [|right; reflexivity].
      apply i_cons in K. destruct K as [[K _]|(l2 & c3 & m3 & c4 & m4 & H & K & -> & ->)]; [|apply i_nil in K; destruct K; discriminate].
      apply op_part in K. destruct K as (C & _ & [(E2 & L & ->)|(E2 & L)]); [|discriminate]. rewrite len_cons. lia.
Qed.
Lemma op_alt l o c m : CST g_OpAlt l o c m -> c <= 20 * (len l - m) + 3 /\
  match o with Some l' => len l' < len l /\ m = len l' | None => m = len l \/ starts (N.eqb 40) l = true end.
Proof.
  intros H. pose proof (cst_m _ _ _ _ _ H) as M. unfold g_OpAlt in H. lits H. st H. st H. apply i_cons in H. destruct H as [[H ->]|(l2 & c1 & m1 & c2 & m2 & H & K & -> & ->)].
  - apply lit_one in H. destruct H as [-> [(_ & -> & _)|(t & _ & E & _)]]; [|discriminate]. split; [lia|left; reflexivity].
  - apply lit_one in H. destruct H as [-> [(E & _)|(t & -> & E & ->)]]; [discriminate|]. inversion E; subst l2. rewrite len_cons in *.
    apply i_cons in K. destruct K as [[K ->]|(l2 & c3 & m3 & c4 & m4 & K & Q & -> & ->)].
    + st K. apply op_part in K. destruct K as (C & _ & [(_ & L & ->)|(E2 & _)]); [|discriminate]. split; [lia|right; reflexivity].
    + st K. apply op_part in K. destruct K as (C & -> & [(E2 & _)|(E2 & L)]); [discriminate|]. inversion E2; subst l2. destruct (run_split word t) as [R _].
      set (t1 := run_rest word t) in *. apply i_cons in Q. destruct Q as [[K ->]|(l2 & c5 & m5 & c6 & m6 & K & Q & -> & ->)].
      * st K. apply i_plus in K. destruct K as (k & l' & c0 & -> & K & Eo). pose proof (csr_m _ _ _ _ _ _ K). apply alt_items in K. split; [lia|right; reflexivity].
      * st K. apply i_plus in K. destruct K as (k & l' & c0 & -> & K & Eo). pose proof (csr_m _ _ _ _ _ _ K). apply alt_items in K. destruct K as (Ci & Mi & Ki). destruct k; [discriminate|]. inversion Eo; subst l2.
        apply i_cons in Q. destruct Q as [[K ->]|(l2 & c7 & m7 & c8 & m8 & K & Q & -> & ->)]; apply lit_one in K; destruct K as [-> [(E3 & -> & S)|(t2 & E3 & E4 & ->)]]; try discriminate.
        -- split; [lia|right; reflexivity].
        -- inversion E4; subst l2. apply i_nil in Q. destruct Q as (-> & -> & ->). subst l'. rewrite len_cons in *. destruct Mi as [Mi|Mi]; [|discriminate]. split; lia.
Qed.
Lemma op_ l o c m : CST g_Op l o c m -> c <= 40 * (len l - m) + 20 /\
  match o with Some l' => len l' < len l /\ (m = len l' \/ starts (N.eqb 40) l' = true) | None => m = len l \/ starts (N.eqb 40) l = true end.
Proof.
  intros H. unfold g_Op in H. st H. st H. apply i_plus in H. destruct H as (k & l' & c0 & -> & H & ->).
  apply (star_simple _ 40 10 (fun l' m => m = len l' \/ starts (N.eqb 40) l' = true)) in H.
  - destruct H as (C & M & Kk). split; [lia|]. destruct k; [subst l'; exact M|auto].
  - clear. intros l l1 c m H. st H. apply i_hcons in H. destruct H as [(l2 & H & E)|(c1 & m1 & c2 & m2 & H & K & -> & ->)].
    + inversion E; subst l2. apply op_part in H. destruct H as (C & -> & [(E2 & _)|(E2 & L)]); [discriminate|]. inversion E2; subst l1. destruct (run_split word l) as [R _]. repeat split; lia.
    + apply op_part in H. destruct H as (C & _ & [(_ & L & ->)|(E2 & _)]); [|discriminate].
      apply i_hcons in K. destruct K as [(l2 & H & E)|(c3 & m3 & c4 & m4 & _ & H & _)]; [|apply i_hnil in H; destruct H; discriminate]. inversion E; subst l2.
      apply op_alt in H. destruct H as (C2 & L2 & ->). repeat split; lia.
  - clear. intros l c m H. st H. apply i_hcons in H. destruct H as [(l2 & H & E)|(c1 & m1 & c2 & m2 & H & K & -> & ->)]; [discriminate|].
    apply op_part in H. destruct H as (C & _ & [(_ & L & ->)|(E2 & _)]); [|discriminate].
    apply i_hcons in K. destruct K as [(l2 & H & E)|(c3 & m3 & c4 & m4 & H & K & -> & ->)]; [discriminate|]. apply i_hnil in K. destruct K as (_ & -> & ->). pose proof (cst_m _ _ _ _ _ H).
    apply op_alt in H. destruct H as (C2 & M2). split; [lia|]. destruct M2 as [->|M2]; [left; lia|right; exact M2].
Qed.

(** ** Calls and expressions *)
Ltac rf b H := apply (i_ref _ b) in H; [|reflexivity]; destruct H as (? & -> & H).
Definition call_fine (l : list N) (o : option (list N)) (c m : N) : Prop :=
  c + 10 * idl l <= 400 * (len l - m) + 10 /\
  match o with Some l' => len l' < len (idr l) /\ m = len l' | None => m = len (idr l) \/ starts (N.eqb 40) (idr l) = true end /\
  (starts lower l = false -> o = None /\ c <= 3 /\ m = len l) /\
  (starts (N.eqb 40) (idr l) = false -> o = None /\ c <= idl l + 6).
Definition expr_fine (l : list N) (o : option (list N)) (c m : N) : Prop :=
  c + 8 * idl l <= 400 * (len l - m) + 30 /\
  match o with
  | Some l' => len l' < len l /\ (m = len l' \/ starts (N.eqb 40) l' = true)
  | None => starts lower l = false /\ len l <= m + 2 /\ (m = len l \/ starts (N.eqb 95) l = true)
  end /\
  (starts lower l = false -> c <= 15 /\ (starts (N.eqb 95) l = false -> o = None)) /\
  (starts (N.eqb 40) (idr l) = false -> c <= 2 * idl l + 20 /\ (starts lower l = true -> o = Some (idr l))) /\
  (starts lower l = true -> exists l', o = Some l' /\ len l' <= len (idr l)).
Lemma idr_le l : len (idr l) <= len l.
Proof. destruct (starts lower l) eqn:S; [destruct (idr_word l S); lia|destruct (idr_none l S) as [-> _]; lia]. Qed.

Lemma expr_of_call l : (forall o c m, CST g_Call l o c m -> call_fine l o c m) -> forall o c m, CST g_Expr l o c m -> expr_fine l o c m.
Proof.
  intros Call o c m H. unfold expr_fine. pose proof (cst_m _ _ _ _ _ H) as M. unfold g_Expr in H. st H. apply i_hcons in H. destruct H as [(l1 & H & ->)|(c1 & m1 & c2 & m2 & H & K & -> & ->)].
  - rf g_Call H. apply Call in H. destruct H as (C & [L ->] & NL & NP). pose proof (idr_le l). split; [lia|]. split; [split; [lia|left; reflexivity]|]. split; [intros S; destruct (NL S); discriminate|]. split; [intros S; destruct (NP S); discriminate|]. intros S. exists l1. split; [reflexivity|lia].
  - rf g_Call H. pose proof (cst_m _ _ _ _ _ H) as M1. apply Call in H. destruct H as (C & W & NL & NP).
    apply i_hcons in K. destruct K as [(l1 & K & ->)|(c3 & m3 & c4 & m4 & H & K & -> & ->)].
    + st K. st K. apply ident in K. destruct K as [(_ & E & _)|(S & c5 & K & ->)]; [discriminate|]. apply i_nil in K. destruct K as (E & -> & ->). inversion E; subst l1.
      destruct (idr_word l S) as (_ & Li & Lp). split; [lia|]. split; [split; [lia|]|]. { destruct W as [->|W]; [left; lia|right; exact W]. } split; [congruence|]. split; [intros Q; apply NP in Q; split; [lia|reflexivity]|]. intros _. eexists. split; [reflexivity|lia].
    + st H. st H. apply ident in H. destruct H as [(S & _ & -> & ->)|(S & c5 & H & _)]; [|apply i_nil in H; destruct H; discriminate].
      destruct (NL S) as (_ & C1 & ->). destruct (idr_none l S) as [_ E0]. rewrite E0 in *.
      apply i_hcons in K. destruct K as [(l1 & K & ->)|(c5 & m5 & c6 & m6 & H & K & -> & ->)].
      * lits K. st K. st K. apply i_cons in K. destruct K as [[_ E]|(l2 & c7 & m7 & c8 & m8 & K & Q & -> & ->)]; [discriminate|]. apply lit_one in K. destruct K as [-> [(E & _)|(t & -> & E & ->)]]; [discriminate|]. inversion E; subst l2.
        apply i_cons in Q. destruct Q as [[_ E2]|(l2 & c9 & m9 & c10 & m10 & K & Q & -> & ->)]; [discriminate|]. apply i_nil in Q. destruct Q as (E2 & -> & ->). inversion E2; subst l2.
        apply i_not in K. destruct K as (o0 & c0 & -> & K & E3). apply lit_one in K. destruct K as [-> [(-> & -> & S2)|(t2 & -> & -> & ->)]]; [|discriminate]. inversion E3; subst l1.
        rewrite len_cons in *. split; [lia|]. split; [split; [lia|left; lia]|]. split; [split; [lia|discriminate]|]. split; [split; [lia|congruence]|congruence].
      * lits H. st H. st H. apply i_hnil in K. destruct K as (-> & -> & ->). apply i_cons in H. destruct H as [[H _]|(l2 & c7 & m7 & c8 & m8 & K & Q & -> & ->)].
        -- apply lit_one in H. destruct H as [-> [(_ & -> & S2)|(t & _ & E & _)]]; [|discriminate]. split; [lia|]. split; [split; [exact S|]; split; [lia|left; lia]|]. split; [split; [lia|reflexivity]|]. split; [split; [lia|congruence]|congruence].
        -- apply lit_one in K. destruct K as [-> [(E & _)|(t & -> & E & ->)]]; [discriminate|]. inversion E; subst l2.
           apply i_cons in Q. destruct Q as [[Q _]|(l2 & c9 & m9 & c10 & m10 & K & Q & -> & ->)]; [|apply i_nil in Q; destruct Q; discriminate].
           apply i_not in Q. destruct Q as (o0 & c0 & -> & Q & E3). apply lit_one in Q. destruct Q as [-> [(-> & _)|(t2 & -> & -> & ->)]]; [discriminate|]. rewrite !len_cons in *.
           split; [lia|]. split; [split; [exact S|]; split; [lia|right; reflexivity]|]. split; [split; [lia|reflexivity]|]. split; [split; [lia|congruence]|congruence].
Qed.

Definition stuck (l : list N) : Prop := starts (N.eqb 40) l = true \/ starts (N.eqb 47) l = true /\ exists mw, SK l l mw.
Lemma stuck_SK l lw mw : stuck l -> SK l lw mw -> lw = l.
Proof.
  intros [S|[S (m & H)]] K; [|apply (SK_det _ _ _ _ _ K H)]. destruct l as [|x t]; [discriminate|]. cbn [starts] in S. apply N.eqb_eq in S. subst x. apply SK_none in K; [apply K|reflexivity].
Qed.
Definition arg_item : pexp := PSeq [g_ws0; lit "," """,""";  g_ws0; PRef (str "Expr"); g_ws0].
Lemma arg_one B : (forall l o c m, len l < B -> CST g_Expr l o c m -> expr_fine l o c m) ->
  forall l o c m, len l < B -> CST arg_item l o c m -> exists lw mw, SK l lw mw /\ m <= mw /\
    (starts (N.eqb 44) lw = false -> o = None /\ m = mw /\ c <= 5 * (len l - mw) + 8) /\
    match o with
    | Some l1 => len l1 < len l /\ (c <= 400 * (len l - m) /\ m = len l1 \/ stuck l1 /\ forall lw1 mw1, SK l1 lw1 mw1 -> c + 20 * (len l1 - mw1) <= 400 * (len l - m))
    | None => c + 10 * (len l - mw) <= 400 * (len l - m) + 30
    end.
Proof.
  intros Ex l o c m LB H. unfold arg_item in H. lits H. st H. apply i_cons in H. destruct H as [[H _]|(lw & c1 & mw & c2 & m2 & H & K & -> & ->)]; [apply ws0 in H; destruct H as (? & ? & _); discriminate|].
  apply ws0 in H. destruct H as (l' & E & Sw & Cw). inversion E; subst l'. exists lw, mw. split; [exact Sw|]. split; [lia|]. pose proof (SK_facts _ _ _ Sw) as (Lw & Mw & _).
  apply i_cons in K. destruct K as [[K ->]|(l2 & c3 & m3 & c4 & m4 & K & Q & -> & ->)].
  - apply lit_one in K. destruct K as [-> [(_ & -> & S)|(t & _ & E2 & _)]]; [|discriminate]. rewrite N.min_l by lia. split; [repeat split; lia|lia].
  - apply lit_one in K. destruct K as [-> [(E2 & _)|(t & -> & E2 & ->)]]; [discriminate|]. inversion E2; subst l2. split; [discriminate|]. rewrite len_cons in *. destruct Mw as [->|Mw]; [|discriminate].
    pose proof (csq_m _ _ _ _ _ Q) as Q0.
    apply i_cons in Q. destruct Q as [[Q _]|(l3 & c5 & m3 & c6 & m6 & Q & K & -> & ->)]; [apply ws0 in Q; destruct Q as (? & ? & _); discriminate|].
    apply ws0 in Q. destruct Q as (l' & E3 & Sw3 & Cw3). inversion E3; subst l'. pose proof (SK_facts _ _ _ Sw3) as (Lw3 & Mw3 & Bl3 & _).
    apply i_cons in K. destruct K as [[K ->]|(l4 & c7 & m7 & c8 & m8 & K & Q & -> & ->)].
    + rf g_Expr K. pose proof (cst_m _ _ _ _ _ K). apply Ex in K; [|lia]. destruct K as (C & (Sl & _ & _) & C2 & _). destruct (C2 Sl) as [C3 _]. lia.
    + rf g_Expr K. pose proof (cst_ok _ _ _ _ _ K). apply Ex in K; [|lia]. destruct K as (C & (L4 & M4) & C2 & _).
      assert (m3 = len l3).
      { destruct Mw3 as [->|Mw3]; [reflexivity|]. destruct l3 as [|x3 t3]; [discriminate|]. cbn [starts] in Mw3. apply N.eqb_eq in Mw3. subst x3. destruct (C2 eq_refl) as [_ X]. discriminate (X eq_refl). }
      subst m3. apply i_cons in Q. destruct Q as [[Q _]|(l5 & c9 & m5 & c10 & m10 & Q & K & -> & ->)]; [apply ws0 in Q; destruct Q as (? & ? & _); discriminate|].
      apply ws0 in Q. destruct Q as (l' & E5 & Sw5 & Cw5). inversion E5; subst l'. pose proof (SK_facts _ _ _ Sw5) as (Lw5 & Mw5 & Bl5 & Sa5 & _).
      apply i_nil in K. destruct K as (-> & -> & ->). split; [lia|]. destruct M4 as [->|M4].
      * destruct Mw5 as [->|Mw5]; [left; split; lia|]. right. split; [right; split; [exact Mw5|eauto]|]. intros lw1 mw1 S1. destruct (SK_det _ _ _ _ _ S1 Sa5) as [-> ->]. lia.
      * right. assert (St : stuck l4) by (left; exact M4). pose proof (stuck_SK _ _ _ St Sw5) as ->. split; [exact St|]. intros lw1 mw1 S1. destruct (SK_det _ _ _ _ _ S1 Sw5) as [-> ->].
        destruct l4 as [|x4 t4]; [discriminate|]. cbn [starts] in M4. apply N.eqb_eq in M4. subst x4. apply SK_none in Sw5; [|reflexivity]. destruct Sw5 as [_ ->]. lia.
Qed.

Lemma call_step l : (forall l' o c m, len l' < len l -> CST g_Expr l' o c m -> expr_fine l' o c m) -> forall o c m, CST g_Call l o c m -> call_fine l o c m.
Proof.
  intros Ex o c m H. pose proof (cst_m _ _ _ _ _ H) as M. unfold g_Call, g_ident in H. cbn [app] in H. lits H. st H. st H. apply ident in H.
  destruct H as [(S & -> & -> & ->)|(S & c2 & H & ->)].
  - destruct (idr_none l S) as [E0 E1]. unfold call_fine. rewrite E0, E1. split; [lia|]. split; [left; reflexivity|]. split; [intros _; repeat split; lia|]. intros _. split; [reflexivity|lia].
  - destruct (idr_word l S) as (_ & Li & Lp). set (l1 := idr l) in *. unfold call_fine. fold l1.
    apply i_cons in H. destruct H as [[H ->]|(l2 & c1 & m1 & c3 & m3 & H & K & -> & ->)].
    + apply lit_one in H. destruct H as [-> [(_ & -> & S2)|(t & _ & E & _)]]; [|discriminate]. split; [lia|]. split; [left; reflexivity|]. split; [congruence|]. intros _. split; [reflexivity|lia].
    + apply lit_one in H. destruct H as [-> [(E & _)|(t & E1 & E & ->)]]; [discriminate|]. inversion E; subst l2. clear E. rewrite E1 in *. rewrite len_cons in *.
      pose proof (csq_m _ _ _ _ _ K) as K0. apply i_cons in K. destruct K as [[K _]|(l3 & c5 & mw & c6 & m6 & K & Q & -> & ->)]; [apply ws0 in K; destruct K as (? & ? & _); discriminate|].
      apply ws0 in K. destruct K as (l' & E & Sw & Cw). inversion E; subst l'. pose proof (SK_facts _ _ _ Sw) as (Lw & Mw & Bl & _).
      apply i_cons in Q. destruct Q as [[Q ->]|(l4 & c7 & m7 & c8 & m8 & K & Q & -> & ->)].
      { rf g_Expr Q. pose proof (cst_m _ _ _ _ _ Q). apply Ex in Q; [|lia]. destruct Q as (C & (Sl & _ & _) & C2 & _). destruct (C2 Sl) as [C3 _]. split; [lia|]. split; [right; reflexivity|]. split; [congruence|discriminate]. }
      rf g_Expr K. pose proof (cst_ok _ _ _ _ _ K). apply Ex in K; [|lia]. destruct K as (C & (L4 & M4) & C2 & _).
      assert (mw = len l3).
      { destruct Mw as [->|Mw]; [reflexivity|]. destruct l3 as [|x3 t3]; [discriminate|]. cbn [starts] in Mw. apply N.eqb_eq in Mw. subst x3. destruct (C2 eq_refl) as [_ X]. discriminate (X eq_refl). }
      subst mw. apply i_cons in Q. destruct Q as [[Q _]|(l5 & c9 & m5 & c10 & m10 & K & Q & -> & ->)]; [apply i_star in Q; destruct Q as (? & ? & ? & _ & _ & Q); discriminate|].
      apply i_star in K. destruct K as (k & l' & c0 & -> & K & E2). inversion E2; subst l'. pose proof (csr_m _ _ _ _ _ _ K) as Mk.
      pose proof (arg_one (len l) Ex) as One.
      destruct (fun A1 A2 A3 => star_gen arg_item (len l) 400 30 (fun l x => exists lw mw, SK l lw mw /\ x = 10 * (len l - mw)) (fun l y => exists lw mw, SK l lw mw /\ y = 20 * (len l - mw)) stuck A1 A2 A3 l4 k l5 c0 m5 ltac:(lia) K) as [P (cf & mf & F & Qm)].
      { intros a a1 ca ma La Ha. destruct (One _ _ _ _ La Ha) as (lw & mw & Sw1 & _ & _ & _ & [X|(X & Y)]); [left; exact X|right; split; [exact X|]]. intros y (lw1 & mw1 & S1 & ->). exact (Y _ _ S1). }
      { intros a ca ma La Ha x6 (lw & mw & S1 & ->). destruct (One _ _ _ _ La Ha) as (lw' & mw' & Sw1 & _ & _ & X). destruct (SK_det _ _ _ _ _ S1 Sw1) as [-> ->]. exact X. }
      { intros a oa ca ma La Bd Ha. destruct (One _ _ _ _ La Ha) as (lw' & mw' & Sw1 & _ & X & _). pose proof (stuck_SK _ _ _ Bd Sw1) as ->.
        assert (S0 : starts (N.eqb 44) a = false) by (destruct a as [|y t5]; [reflexivity|]; destruct Bd as [Bd|[Bd _]]; cbn [starts] in *; apply N.eqb_eq in Bd; subst y; reflexivity).
        destruct (X S0) as (-> & -> & Ca). split; [reflexivity|]. intros x6 (lw & mw & S1 & ->). destruct (SK_det _ _ _ _ _ S1 Sw1) as [-> ->]. exists (20 * (len a - mw')). split; [eauto|]. lia. }
      apply i_cons in Q. destruct Q as [[Q _]|(l6 & c11 & m11 & c12 & m12 & Q & R & -> & ->)]; [apply ws0 in Q; destruct Q as (? & ? & _); discriminate|].
      apply ws0 in Q. destruct Q as (l' & E6 & Sw6 & Cw6). inversion E6; subst l'. pose proof (SK_facts _ _ _ Sw6) as (Lw6 & Mw6 & Bl6 & _).
      specialize (P _ (ex_intro _ l6 (ex_intro _ m11 (conj Sw6 eq_refl)))).
      assert (LB5 : len l5 < len l) by lia. assert (LB4 : len l4 < len l) by lia. destruct (One _ _ _ _ LB5 F) as (lwf & mwf & Swf & Mf & Xf & _). destruct (SK_det _ _ _ _ _ Swf Sw6) as [-> ->].
      assert (m5 <= m11) by (destruct Qm as [->|[_ Qm]]; lia).
      assert (Stop : starts (N.eqb 40) l4 = true -> l5 = l4 /\ c0 <= 8).
      { intros M4'. assert (St : stuck l4) by (left; exact M4'). apply i_star_loop in K. assert (N4 : forall oa ca ma, CST arg_item l4 oa ca ma -> oa = None /\ ca <= 8).
        { intros oa ca ma Ha. destruct (One _ _ _ _ LB4 Ha) as (lw' & mw' & Sw1 & _ & X & _). pose proof (stuck_SK _ _ _ St Sw1) as ->.
          destruct l4 as [|y t5]; [discriminate|]. cbn [starts] in M4'. apply N.eqb_eq in M4'. subst y. destruct (X eq_refl) as (-> & -> & Ca). apply SK_none in Sw1; [|reflexivity]. destruct Sw1 as [_ ->]. split; [reflexivity|lia]. }
        destruct K as [(_ & -> & K)|(l8 & k1 & c15 & m15 & c16 & m16 & _ & K & _)]; apply N4 in K; destruct K as [E8 K]; [auto|discriminate]. }
      apply i_cons in R. destruct R as [[R ->]|(l7 & c13 & m13 & c14 & m14 & R & T & -> & ->)].
      * apply lit_one in R. destruct R as [-> [(_ & -> & S2)|(t7 & _ & E7 & _)]]; [|discriminate]. split; [|split; [right; reflexivity|split; [congruence|discriminate]]].
        destruct M4 as [->|M4]; [lia|]. destruct (Stop M4) as [-> C0]. pose proof (stuck_SK l4 _ _ (or_introl M4) Sw6) as ->. destruct l4 as [|y t5]; [discriminate|]. cbn [starts] in M4. apply N.eqb_eq in M4. subst y. apply SK_none in Sw6; [|reflexivity]. destruct Sw6 as [_ ->]. lia.
      * apply lit_one in R. destruct R as [-> [(E7 & _)|(t7 & -> & E7 & ->)]]; [discriminate|]. inversion E7; subst l7. apply i_nil in T. destruct T as (-> & -> & ->).
        assert (M7 : m7 = len l4).
        { destruct M4 as [M4|M4]; [exact M4|]. destruct (Stop M4) as [-> C0]. pose proof (stuck_SK l4 _ _ (or_introl M4) Sw6) as <-. discriminate. }
        assert (M5 : m5 = m11).
        { destruct (Xf eq_refl) as (_ & -> & _). destruct Qm as [->|[Bd _]]; [reflexivity|]. pose proof (stuck_SK _ _ _ Bd Sw6) as <-. destruct Bd as [Bd|[Bd _]]; discriminate. }
        destruct Mw6 as [Mw6|Mw6]; [|discriminate]. rewrite len_cons in *. subst m7 m5 m11. split; [lia|]. split; [split; lia|]. split; [congruence|discriminate].
Qed.
Lemma expr_all : forall l o c m, CST g_Expr l o c m -> expr_fine l o c m.
Proof.
  assert (H : forall n l, (List.length l < n)%nat -> forall o c m, CST g_Expr l o c m -> expr_fine l o c m).
  { induction n as [|n IH]; intros l L; [lia|]. apply expr_of_call. apply call_step. intros l' o c m L'. apply IH. unfold len in L'. lia. }
  intros l. apply (H (S (List.length l))). lia.
Qed.

(** ** What may follow the operands *)
Lemma common_ge rs : forall l, len l <= common rs l + len rs.
Proof. induction rs as [|r rs IH]; intros l; cbn [common]; [lia|]. destruct l as [|x t]; [cbn; lia|]. rewrite !len_cons. destruct (x =? r); [specialize (IH t); lia|lia]. Qed.
Lemma opt_part n r w l o c m : r <> 47 -> CST (PLabel n (POpt (PSeq [g_ws1; PLit [r; r; r] w]))) l o c m -> exists lw mw l', SK l lw mw /\ o = Some l' /\ c <= 5 * (len l - mw) + 11 /\
  ((l' = l /\ m <= mw /\ (m = mw \/ starts (N.eqb r) lw = true /\ mw <= m + 3)) \/
   (len lw < len l /\ starts (N.eqb r) lw = true /\ mw = len lw /\ m = len l' /\ len lw = len l' + 3)).
Proof.
  intros R H. st H. apply i_opt in H. destruct H as (o0 & c0 & -> & H & ->). st H. apply i_cons in H. destruct H as [[H ->]|(lw & c1 & mw & c2 & m2 & H & K & -> & ->)]; apply ws1 in H; destruct H as (lw' & Sw & Cw & [[E Ew]|[E Lw]]); try discriminate.
  - subst lw'. exists l, m, l. split; [exact Sw|]. split; [reflexivity|]. split; [lia|]. left. split; [reflexivity|]. split; [lia|left; reflexivity].
  - inversion E; subst lw'. pose proof (SK_facts _ _ _ Sw) as (Lk & Mw & _). apply i_cons in K. destruct K as [[K ->]|(l2 & c3 & m3 & c4 & m4 & K & Q & -> & ->)].
    + apply lit_head in K. destruct K as [-> [(_ & -> & S)|(t & El & Es & ->)]]; exists lw, mw, l; (split; [exact Sw|]); (split; [reflexivity|]); (split; [lia|]); left; (split; [reflexivity|]); (split; [lia|]).
      * left. lia.
      * right. rewrite El in *. cbn [starts]. rewrite N.eqb_refl. split; [reflexivity|]. pose proof (common_ge [r; r] t) as G. change (len [r; r]) with 2 in G. rewrite len_cons in *. lia.
    + apply i_nil in Q. destruct Q as (-> & -> & ->). apply lit_head in K. destruct K as [-> [(E2 & _)|(t & -> & Es & ->)]]; [discriminate|]. symmetry in Es. destruct (strip_len [r; r] t) as [_ X]. destruct (X _ Es) as [X1 X2]. change (len [r; r]) with 2 in X2.
      rewrite len_cons in *. assert (Mw' : mw = len t + 1). { destruct Mw as [->|Mw]; [reflexivity|]. cbn [starts] in Mw. apply N.eqb_eq in Mw. congruence. }
      exists (r :: t), mw, l2. split; [exact Sw|]. split; [reflexivity|]. split; [lia|]. right. cbn [starts]. rewrite N.eqb_refl, len_cons. repeat split; lia.
Qed.
Lemma close l o c m : CSQ [g_ws0; PLit [41] (str """)""")] l o c m -> exists lw mw, SK l lw mw /\ c <= 5 * (len l - mw) + 7 /\
  ((o = None /\ m = mw /\ starts (N.eqb 41) lw = false) \/ (exists l', lw = 41 :: l' /\ o = Some l' /\ m = len l')).
Proof.
  intros H. apply i_cons in H. destruct H as [[H _]|(lw & c1 & mw & c2 & m2 & H & K & -> & ->)]; [apply ws0 in H; destruct H as (? & ? & _); discriminate|]. apply ws0 in H. destruct H as (l1 & E & Sw & Cw). inversion E; subst l1.
  pose proof (SK_facts _ _ _ Sw) as (Lk & Mw & _). exists lw, mw. split; [exact Sw|].
  apply i_cons in K. destruct K as [[K ->]|(l2 & c3 & m3 & c4 & m4 & K & Q & -> & ->)]; apply lit_one in K; destruct K as [-> [(E2 & -> & S)|(t & -> & E2 & ->)]]; try discriminate.
  - split; [lia|]. left. repeat split; [lia|exact S].
  - inversion E2; subst l2. apply i_nil in Q. destruct Q as (-> & -> & ->). split; [lia|]. right. exists t. destruct Mw as [->|Mw]; [|discriminate]. rewrite len_cons. repeat split; lia.
Qed.
Definition ends (l : list N) : bool := starts (fun x => (x =? 46) || (x =? 95) || (x =? 41)) l.
Definition tail_part : list pexp :=
  [PLabel (str "ellipsis") (POpt (PSeq [g_ws1; PLit [46; 46; 46] (str """...""")]));
   PLabel (str "trailing") (POpt (PSeq [g_ws1; PLit [95; 95; 95] (str """___""")]));
   g_ws0; PLit [41] (str """)""")].
Lemma starts_eq k l : starts (N.eqb k) l = true -> exists t, l = k :: t.
Proof. intros H. apply starts_cons in H. destruct H as (x & t & -> & E). apply N.eqb_eq in E. subst. eauto. Qed.
Lemma tail_fine l o c m lw mw : CSQ tail_part l o c m -> SK l lw mw -> m <= mw /\
  (ends lw = false -> o = None /\ m = mw /\ c <= 18 * (len l - mw) + 40) /\
  (ends lw = true -> mw = len lw /\ c <= 18 * (len l - len lw) + 36 * (len lw - m) + 80 /\
     forall l', o = Some l' -> m = len l' /\ len l' < len lw /\ (starts (N.eqb 95) lw = true -> len l' + 2 <= len lw)).
Proof.
  intros H Sw. pose proof (SK_facts _ _ _ Sw) as (Lk & Mw & _). unfold tail_part in H.
  assert (En : ends lw = true -> mw = len lw).
  { intros E. apply (SK_not47 _ _ _ Sw). destruct lw as [|x t]; [reflexivity|]. unfold ends in E. cbn [starts] in *. destruct (N.eqb_spec 47 x) as [<-|]; [discriminate|reflexivity]. }
  apply i_cons in H. destruct H as [[H _]|(l1 & c1 & m1 & c2 & m2 & H & K & -> & ->)]; [apply opt_part in H; [|lia]; destruct H as (? & ? & ? & _ & X & _); discriminate|].
  apply opt_part in H; [|lia]. destruct H as (lw1 & mw1 & l1' & Sw1 & E1 & C1 & H). inversion E1; subst l1'. destruct (SK_det _ _ _ _ _ Sw1 Sw) as [-> ->]. clear Sw1 E1.
  apply i_cons in K. destruct K as [[K _]|(l2 & c3 & m3 & c4 & m4 & K & Q & -> & ->)]; [apply opt_part in K; [|lia]; destruct K as (? & ? & ? & _ & X & _); discriminate|].
  apply opt_part in K; [|lia]. destruct K as (lw2 & mw2 & l2' & Sw2 & E2 & C2 & K). inversion E2; subst l2'. clear E2. pose proof (SK_facts _ _ _ Sw2) as (Lk2 & Mw2 & _).
  apply close in Q. destruct Q as (lw3 & mw3 & Sw3 & C3 & Q). pose proof (SK_facts _ _ _ Sw3) as (Lk3 & Mw3 & _).
  destruct H as [(-> & M1 & D1)|(L1 & S1 & -> & -> & D1)].
  - destruct (SK_det _ _ _ _ _ Sw2 Sw) as [-> ->]. clear Sw2. destruct K as [(-> & M2 & D2)|(L2 & S2 & _ & -> & D2)].
    + destruct (SK_det _ _ _ _ _ Sw3 Sw) as [-> ->]. clear Sw3. split; [lia|]. split.
      * intros E. assert (N1 : starts (N.eqb 46) lw = false /\ starts (N.eqb 95) lw = false /\ starts (N.eqb 41) lw = false).
        { destruct lw as [|x t]; [auto|]. unfold ends in E. cbn [starts] in *. rewrite !(N.eqb_sym _ x). apply orb_false_iff in E. destruct E as [E E3]. apply orb_false_iff in E. tauto. }
        destruct N1 as (N1 & N2 & N3). destruct D1 as [D1|[D1 _]]; [|congruence]. destruct D2 as [D2|[D2 _]]; [|congruence].
        destruct Q as [(-> & -> & _)|(l' & -> & _)]; [|discriminate]. repeat split; lia.
      * intros E. specialize (En E). subst mw. split; [reflexivity|]. assert (D : len lw <= m1 + 3 /\ len lw <= m3 + 3) by (split; [destruct D1 as [->|[_ D1]]|destruct D2 as [->|[_ D2]]]; lia).
        destruct Q as [(-> & -> & S3)|(l' & -> & -> & ->)]; [split; [lia|discriminate]|]. rewrite len_cons in *. destruct D1 as [->|[D1 _]]; [|discriminate]. destruct D2 as [->|[D2 _]]; [|discriminate].
        split; [lia|]. intros l2 E3. inversion E3; subst l2. repeat split; [lia|lia|discriminate].
    + assert (E : ends lw = true). { apply starts_eq in S2. destruct S2 as (t & ->). reflexivity. }
      split; [destruct Q as [(-> & -> & S3)|(l' & -> & -> & ->)]; lia|]. split; [congruence|]. intros _. specialize (En E). subst mw. split; [reflexivity|].
      destruct D1 as [->|[D1 _]]; [|apply starts_eq in S2; destruct S2 as (t & ->); discriminate].
      destruct Q as [(-> & -> & S3)|(l' & -> & -> & ->)]; [split; [lia|discriminate]|]. rewrite len_cons in *. destruct Mw3 as [Mw3|Mw3]; [|discriminate]. split; [lia|]. intros l3 E3. inversion E3; subst l3. repeat split; lia.
  - assert (E : ends lw = true). { apply starts_eq in S1. destruct S1 as (t & ->). reflexivity. }
    split; [lia|]. split; [congruence|]. intros _. split; [reflexivity|].
    destruct K as [(-> & M2 & D2)|(L2 & S2 & -> & -> & D2)].
    + destruct (SK_det _ _ _ _ _ Sw3 Sw2) as [-> ->]. destruct Q as [(-> & -> & S3)|(l' & -> & -> & ->)]; [split; [destruct D2 as [->|[_ D2]]; lia|discriminate]|]. rewrite len_cons in *.
      destruct D2 as [->|[D2 _]]; [|discriminate]. destruct Mw3 as [Mw3|Mw3]; [|discriminate]. split; [lia|]. intros l3 E3. inversion E3; subst l3. repeat split; lia.
    + destruct Q as [(-> & -> & S3)|(l' & -> & -> & ->)]; [split; [lia|discriminate]|]. rewrite len_cons in *. destruct Mw3 as [Mw3|Mw3]; [|discriminate]. split; [lia|]. intros l3 E3. inversion E3; subst l3. repeat split; lia.
Qed.

(** ** Operands *)
Definition loose (l : list N) : bool := starts (fun x => (x =? 40) || (x =? 58)) l.
Definition quick (l : list N) : bool := starts (fun x => (x =? 46) || (x =? 95) || (x =? 41) || (x =? 47)) l.
Definition operand_fine (l : list N) (o : option (list N)) (c m : N) : Prop :=
  c <= 400 * (len l - m) + 130 /\
  (forall l', o = Some l' -> len l' < len l /\ (m = len l' \/ loose l' = true)) /\
  (quick l = true -> c <= 80 /\ (starts (N.eqb 95) l = false -> o = None) /\ (o = None -> len l <= m + 2 /\ (m = len l \/ starts (N.eqb 95) l = true))).
Lemma loose_SK l lw mw : loose l = true -> SK l lw mw -> lw = l /\ mw = len l.
Proof.
  intros S K. apply SK_none in K; [exact K|]. destruct l as [|x t]; [reflexivity|]. unfold loose in S. cbn [starts] in *. apply orb_true_iff in S. destruct S as [S|S]; apply N.eqb_eq in S; subst x; reflexivity.
Qed.
Lemma quick_slash l : starts (N.eqb 47) l = true -> quick l = true.
Proof. intros H. apply starts_eq in H. destruct H as (t & ->). reflexivity. Qed.
Definition operand_item : pexp := PSeq [g_ws1; PRef (str "Operand")].
Lemma operand_one B : (forall l o c m, len l < B -> CST g_Operand l o c m -> operand_fine l o c m) ->
  forall l o c m, len l < B -> CST operand_item l o c m -> exists lw mw, SK l lw mw /\ m <= mw /\
    match o with
    | Some l1 => len l1 < len l /\ c <= 400 * (len l - m) /\ (m = len l1 \/ loose l1 = true)
    | None => c + 36 * (len l - mw) <= 400 * (len l - m) + 20 /\ (lw = l -> m = mw /\ c <= 5 * (len l - mw) + 7) /\
              (quick lw = true -> mw = len lw -> len lw <= m + 2 /\ (m = len lw \/ starts (N.eqb 95) lw = true))
    end /\ (lw = l -> o = None).
Proof.
  intros Op l o c m LB H. unfold operand_item in H. st H. apply i_cons in H. destruct H as [[H ->]|(lw & c1 & mw & c2 & m2 & H & K & -> & ->)]; apply ws1 in H; destruct H as (lw' & Sw & Cw & [[E Ew]|[E Lw]]); try discriminate.
  - subst lw'. exists l, m. split; [exact Sw|]. split; [lia|]. split; [|reflexivity]. split; [lia|]. split; [split; lia|]. intros _ ->. split; [lia|left; reflexivity].
  - inversion E; subst lw'. pose proof (SK_facts _ _ _ Sw) as (Lk & Mw & _). exists lw, mw. split; [exact Sw|]. split; [lia|]. split; [|intros ->; lia].
    apply i_cons in K. destruct K as [[K ->]|(l2 & c3 & m3 & c4 & m4 & K & Q & -> & ->)].
    + rf g_Operand K. pose proof (cst_m _ _ _ _ _ K). apply Op in K; [|lia]. destruct K as (C & _ & Qk). destruct Mw as [->|Mw].
      * split; [lia|]. split; [intros ->; lia|]. intros Q _. apply Qk in Q. destruct Q as (_ & _ & Q). destruct (Q eq_refl) as [Q1 Q2]. split; [lia|]. destruct Q2 as [->|Q2]; [left; lia|right; exact Q2].
      * pose proof (Qk (quick_slash _ Mw)) as (Q1 & _ & Q2). destruct (Q2 eq_refl) as [_ [Q3|Q3]]; [|apply starts_eq in Mw; destruct Mw as (t & ->); discriminate].
        split; [lia|]. split; [intros ->; lia|]. intros _ ->. split; [lia|left; lia].
    + apply i_nil in Q. destruct Q as (-> & -> & ->). rf g_Operand K. pose proof (cst_ok _ _ _ _ _ K). apply Op in K; [|lia]. destruct K as (C & Ok & Qk). destruct (Ok _ eq_refl) as [L1 M1].
      destruct Mw as [->|Mw].
      * split; [lia|]. split; [lia|]. destruct M1 as [->|M1]; [left; lia|right; exact M1].
      * pose proof (Qk (quick_slash _ Mw)) as (_ & Q1 & _). apply starts_eq in Mw. destruct Mw as (t & ->). discriminate (Q1 eq_refl).
Qed.

(** ** S-expressions, after the parenthesis *)
Lemma op_slash l o c m : CST g_Op l o c m -> starts (N.eqb 47) l = true -> o = None.
Proof.
  intros H S. apply starts_eq in S. destruct S as (t & ->). unfold g_Op in H. st H. st H. apply i_plus in H. destruct H as (k & l' & c0 & -> & H & ->). destruct k as [|k]; [reflexivity|]. exfalso.
  apply i_star_loop in H. destruct H as [(E & _)|(l1 & k1 & c1 & m1 & c2 & m2 & _ & H & _)]; [discriminate|]. st H. apply i_hcons in H. destruct H as [(l2 & H & E)|(c3 & m3 & c4 & m4 & _ & K & _)].
  - apply op_part in H. destruct H as (_ & _ & [(E2 & _)|(_ & L)]); [discriminate|]. vm_compute in L. apply L. reflexivity.
  - apply i_hcons in K. destruct K as [(l2 & H & E)|(c5 & m5 & c6 & m6 & _ & H & _)]; [|apply i_hnil in H; destruct H; discriminate]. unfold g_OpAlt in H. lits H. st H. st H. apply i_cons in H. destruct H as [[_ E2]|(l3 & c7 & m7 & c8 & m8 & H & _)]; [discriminate|].
    apply lit_one in H. destruct H as [_ [(E2 & _)|(t2 & E2 & _)]]; discriminate.
Qed.
Definition body_part : list pexp := g_ws0 :: PLabel (str "op") g_Op :: PLabel (str "operands") (PStar operand_item) :: tail_part.
Lemma body_fine B : (forall l o c m, len l < B -> CST g_Operand l o c m -> operand_fine l o c m) ->
  forall l o c m, len l < B -> CSQ body_part l o c m -> c <= 400 * (len l - m) + 300 /\ (forall l', o = Some l' -> m = len l' /\ len l' < len l).
Proof.
  intros Op l o c m LB H. pose proof (csq_m _ _ _ _ _ H) as M0. unfold body_part in H. apply i_cons in H. destruct H as [[H _]|(l2 & c1 & mw & c2 & m2 & H & K & -> & ->)]; [apply ws0 in H; destruct H as (? & ? & _); discriminate|].
  apply ws0 in H. destruct H as (l' & E & Sw & Cw). inversion E; subst l'. clear E. pose proof (SK_facts _ _ _ Sw) as (Lk & Mw & _).
  apply i_cons in K. destruct K as [[K ->]|(l3 & c3 & m3 & c4 & m4 & K & Q & -> & ->)]; st K.
  { pose proof (cst_m _ _ _ _ _ K). apply op_ in K. split; [lia|discriminate]. }
  pose proof (cst_ok _ _ _ _ _ K) as Ko. assert (mw = len l2). { destruct Mw as [->|Mw]; [reflexivity|]. discriminate (op_slash _ _ _ _ K Mw). } subst mw. apply op_ in K. destruct K as (C3 & L3 & M3).
  apply i_cons in Q. destruct Q as [[Q _]|(l4 & c5 & m5 & c6 & m6 & K & T & -> & ->)]; [st Q; apply i_star in Q; destruct Q as (? & ? & ? & _ & _ & Q); discriminate|].
  st K. apply i_star in K. destruct K as (k & l' & c0 & -> & K & E2). inversion E2; subst l'. clear E2. pose proof (csr_m _ _ _ _ _ _ K) as Mk.
  pose proof (operand_one B Op) as One. assert (LB3 : len l3 < B) by lia. assert (LB4 : len l4 < B) by lia.
  pose proof (csq_m _ _ _ _ _ T) as T0.
  assert (Stop : starts (N.eqb 40) l3 = true -> l4 = l3 /\ c0 <= 7 /\ m5 = len l3).
  { intros S. assert (Ls : loose l3 = true) by (apply starts_eq in S; destruct S as (t & ->); reflexivity).
    apply i_star_loop in K. destruct K as [(_ & -> & K)|(l8 & k1 & c15 & m15 & c16 & m16 & _ & K & _)]; destruct (One _ _ _ _ LB3 K) as (lw & mw & Sw3 & _ & X & Y); destruct (loose_SK _ _ _ Ls Sw3) as [-> ->].
    - destruct X as (_ & X & _). destruct (X eq_refl). repeat split; lia.
    - discriminate (Y eq_refl). }
  destruct (fun A1 A2 A3 => star_gen operand_item B 400 20 (fun l x => exists lw mw, SK l lw mw /\ x = 36 * (len l - mw)) (fun _ y => y = 0) (fun l => loose l = true) A1 A2 A3 l3 k l4 c0 m5 LB3 K) as [P (cf & mf & F & Qm)].
  { intros a a1 ca ma La Ha. destruct (One _ _ _ _ La Ha) as (lw & mw & Sw1 & _ & (_ & X & [Y|Y]) & _); [left; auto|right; split; [exact Y|]]. intros y ->. lia. }
  { intros a ca ma La Ha x6 (lw & mw & S1 & ->). destruct (One _ _ _ _ La Ha) as (lw' & mw' & Sw1 & _ & X & _). destruct (SK_det _ _ _ _ _ S1 Sw1) as [-> ->]. apply X. }
  { intros a oa ca ma La Bd Ha. destruct (One _ _ _ _ La Ha) as (lw' & mw' & Sw1 & _ & X & Y). destruct (loose_SK _ _ _ Bd Sw1) as [-> ->]. specialize (Y eq_refl). subst oa. split; [reflexivity|].
    intros x6 (lw & mw & S1 & ->). destruct (SK_det _ _ _ _ _ S1 Sw1) as [-> ->]. exists 0. split; [reflexivity|]. destruct X as (_ & X & _). destruct (X eq_refl). lia. }
  destruct (One _ _ _ _ LB4 F) as (lw & mw & Swf & Mf & (Cf & Nf & Qf) & _). specialize (P _ (ex_intro _ lw (ex_intro _ mw (conj Swf eq_refl)))).
  pose proof (SK_facts _ _ _ Swf) as (Lk4 & Mw4 & _).
  destruct (tail_fine _ _ _ _ _ _ T Swf) as (Tm & Tn & Te).
  assert (M5w : m5 <= mw) by (destruct Qm as [->|[_ Qm]]; lia).
  destruct (ends lw) eqn:En.
  - destruct (Te eq_refl) as (-> & Ct & Ok). clear Te Tn.
    assert (Nl : loose l4 = false). { destruct (loose l4) eqn:Ls; [|reflexivity]. destruct (loose_SK _ _ _ Ls Swf) as [-> _]. destruct l4 as [|x4 t4]; [discriminate|]. unfold loose in Ls. unfold ends in En. cbn [starts] in *.
      apply orb_true_iff in Ls. destruct Ls as [Ls|Ls]; apply N.eqb_eq in Ls; subst x4; discriminate. }
    assert (M5f : m5 = mf) by (destruct Qm as [->|[Bd _]]; [reflexivity|congruence]). subst mf.
    assert (Qk : quick lw = true). { unfold ends in En. unfold quick. destruct lw as [|x4 t4]; [discriminate|]. cbn [starts] in *. rewrite En. reflexivity. }
    destruct (Qf Qk eq_refl) as [Q1 Q2].
    assert (M33 : m3 = len l3). { destruct M3 as [M3|M3]; [exact M3|]. destruct (Stop M3) as (-> & _). apply starts_eq in M3. destruct M3 as (t & ->). discriminate Nl. } subst m3.
    split; [lia|]. intros l' ->. destruct (Ok _ eq_refl) as (-> & O1 & O2). assert (len l' <= m5) by (destruct Q2 as [->|Q2]; [lia|specialize (O2 Q2); lia]). split; lia.
  - destruct (Tn eq_refl) as (-> & -> & Ct). clear Te Tn. split; [|discriminate]. destruct M3 as [->|M3]; [lia|]. destruct (Stop M3) as (-> & C0 & ->).
    assert (Ls : loose l3 = true) by (apply starts_eq in M3; destruct M3 as (t & ->); reflexivity). destruct (loose_SK _ _ _ Ls Swf) as [_ ->]. lia.
Qed.

Definition sexpr_fine (l : list N) (o : option (list N)) (c m : N) : Prop :=
  c + 4 * idl l <= 400 * (len l - m) + 30 /\
  (forall l', o = Some l' -> len l' < len l /\ m = len l') /\
  (starts lower l = false -> starts (N.eqb 40) l = false -> o = None /\ c <= 15 /\ m = len l) /\
  (starts lower l = true -> (o = None /\ c <= idl l + 15 /\ m = len (idr l)) \/ starts (N.eqb 58) (idr l) = true).
Lemma binding_part n a w l o c m : CST (PLabel n (POpt (PSeq [PAction a (PSeq g_ident); PLit [58] w]))) l o c m -> exists l0, o = Some l0 /\ c <= idl l + 8 /\
  ((l0 = l /\ m = len (idr l)) \/ (starts lower l = true /\ idr l = 58 :: l0 /\ m = len l0)).
Proof.
  intros H. st H. apply i_opt in H. destruct H as (o0 & c0 & -> & H & ->). eexists. split; [reflexivity|]. st H. apply i_cons in H. destruct H as [[H ->]|(l1 & c1 & m1 & c2 & m2 & H & K & -> & ->)]; st H; st H; unfold g_ident in H; apply ident in H.
  - destruct H as [(S & _ & -> & ->)|(S & c3 & H & _)]; [|apply i_nil in H; destruct H; discriminate]. destruct (idr_none l S) as [-> ->]. split; [lia|left; auto].
  - destruct H as [(S & E & _)|(S & c3 & H & ->)]; [discriminate|]. apply i_nil in H. destruct H as (E & -> & ->). inversion E; subst l1.
    apply i_cons in K. destruct K as [[K ->]|(l2 & c4 & m4 & c5 & m5 & K & Q & -> & ->)]; apply lit_one in K; destruct K as [-> [(E2 & -> & S2)|(t & E1 & E2 & ->)]]; try discriminate.
    + split; [lia|]. left. split; [reflexivity|lia].
    + inversion E2; subst l2. apply i_nil in Q. destruct Q as (-> & -> & ->). split; [lia|]. right. rewrite E1, len_cons. repeat split; [exact S|lia].
Qed.
Lemma sexpr_step l : (forall l' o c m, len l' < len l -> CST g_Operand l' o c m -> operand_fine l' o c m) -> forall o c m, CST g_SExpr l o c m -> sexpr_fine l o c m.
Proof.
  intros Op o c m H. pose proof (cst_m _ _ _ _ _ H) as M. unfold g_SExpr in H. lits H. st H. st H. unfold sexpr_fine.
  apply i_cons in H. destruct H as [[H _]|(l0 & c1 & m1 & c2 & m2 & H & K & -> & ->)]; [apply binding_part in H; destruct H as (? & ? & _); discriminate|].
  apply binding_part in H. destruct H as (l' & E & C1 & H). inversion E; subst l'. clear E. pose proof (idr_le l) as Li.
  assert (Ln : len l = len (idr l) + idl l) by (unfold idl; lia).
  apply i_cons in K. destruct K as [[K ->]|(l1 & c3 & m3 & c4 & m4 & K & Q & -> & ->)]; apply lit_one in K; destruct K as [-> [(E2 & -> & S2)|(t & E1 & E2 & ->)]]; try discriminate.
  - destruct H as [[-> ->]|(S & E & ->)].
    + split; [lia|]. split; [discriminate|]. split; [intros S _; destruct (idr_none l S) as [-> E0]; repeat split; lia|]. intros S. left. repeat split; lia.
    + rewrite E, len_cons in *. split; [lia|]. split; [discriminate|]. split; [congruence|]. intros _. right. reflexivity.
  - inversion E2; subst l1. clear E2.
    assert (Lt : len t < len l). { destruct H as [[-> _]|(S & E & _)]; [rewrite E1, len_cons; lia|]. rewrite E, E1, !len_cons in Ln. lia. }
    pose proof (csq_m _ _ _ _ _ Q). destruct (body_fine (len l) Op _ _ _ _ Lt Q) as [C4 Ok].
    destruct H as [[-> ->]|(S & E & ->)].
    + rewrite E1 in *. destruct (idr_none (40 :: t) eq_refl) as [Ei Ej]. rewrite Ei, Ej, len_cons in *. split; [lia|]. split; [|split; discriminate]. intros l' ->. destruct (Ok _ eq_refl) as [-> L]. split; lia.
    + destruct (idr_word l S) as (_ & _ & Lp). rewrite E, E1, !len_cons in *. split; [lia|]. split; [|split; [congruence|intros _; right; reflexivity]]. intros l' ->. destruct (Ok _ eq_refl) as [-> L]. split; lia.
Qed.

(** ** Values and operands *)
Definition value_fine (l : list N) (o : option (list N)) (c m : N) : Prop :=
  c <= 400 * (len l - m) + 100 /\
  (forall l', o = Some l' -> len l' < len l /\ (m = len l' \/ loose l' = true)) /\
  (starts lower l = false -> starts (N.eqb 40) l = false ->
     c <= 40 /\ (starts (N.eqb 95) l = false -> o = None) /\ (o = None -> len l <= m + 2 /\ (m = len l \/ starts (N.eqb 95) l = true))).
Lemma loose_40 l : starts (N.eqb 40) l = true -> loose l = true.
Proof. intros H. apply starts_eq in H. destruct H as (t & ->). reflexivity. Qed.
Lemma loose_58 l : starts (N.eqb 58) l = true -> loose l = true.
Proof. intros H. apply starts_eq in H. destruct H as (t & ->). reflexivity. Qed.
Lemma value_step l : (forall o c m, CST g_SExpr l o c m -> sexpr_fine l o c m) -> forall o c m, CST g_Value l o c m -> value_fine l o c m.
Proof.
  intros Se o c m H. pose proof (cst_m _ _ _ _ _ H) as M. unfold g_Value in H. st H. unfold value_fine. pose proof (idr_le l) as Li.
  assert (Ln : len l = len (idr l) + idl l) by (unfold idl; lia).
  apply i_hcons in H. destruct H as [(l1 & H & ->)|(c1 & m1 & c2 & m2 & H & K & -> & ->)]; rf g_SExpr H.
  - apply Se in H. destruct H as (C & Ok & Q & _). destruct (Ok _ eq_refl) as [L ->]. split; [lia|]. split; [intros l' E; inversion E; subst l'; auto|]. intros S1 S2. destruct (Q S1 S2). discriminate.
  - pose proof (cst_m _ _ _ _ _ H) as M1. apply Se in H. destruct H as (C1 & _ & Q1 & B1).
    assert (He : exists c3 m3, CST g_Expr l o c3 m3 /\ c2 = 1 + c3 /\ m2 = m3 /\ m3 <= len l).
    { apply i_hcons in K. destruct K as [(l2 & K & ->)|(c3 & m3 & c4 & m4 & K & Q & -> & ->)]; rf g_Expr K; pose proof (cst_m _ _ _ _ _ K).
      - eauto 8.
      - apply i_hnil in Q. destruct Q as (-> & -> & ->). eexists _, _. split; [exact K|]. repeat split; lia. }
    clear K. destruct He as (c3 & m3 & K & -> & -> & M3). assert (Ko : forall l', o = Some l' -> m3 <= len l') by (intros l' ->; apply (cst_ok _ _ _ _ _ K)). apply expr_all in K. destruct K as (C2 & Oe & NL & N40 & Lo).
    destruct (starts lower l) eqn:S.
    + destruct (Lo eq_refl) as (l1 & -> & L1). destruct Oe as [L2 M2]. specialize (Ko _ eq_refl). split; [|split; [|discriminate]].
      * destruct (B1 eq_refl) as [(_ & D1 & ->)|D1]; [lia|]. apply starts_eq in D1. destruct D1 as (t & Et). rewrite Et in N40. destruct (N40 eq_refl) as [D2 _]. lia.
      * intros l' E'. inversion E'; subst l'. split; [lia|]. destruct (B1 eq_refl) as [(_ & D1 & ->)|D1].
        -- destruct M2 as [->|M2]; [left; lia|right; apply loose_40; exact M2].
        -- right. assert (N4 : starts (N.eqb 40) (idr l) = false) by (apply starts_eq in D1; destruct D1 as (t & ->); reflexivity). destruct (N40 N4) as [_ X]. specialize (X eq_refl). inversion X; subst l1. apply loose_58. exact D1.
    + destruct (idr_none l S) as [Ei Ej]. rewrite Ej in *. destruct (NL eq_refl) as [D1 D2]. destruct (starts (N.eqb 40) l) eqn:S4.
      * split; [lia|]. split; [|discriminate]. intros l' ->. apply starts_eq in S4. destruct S4 as (t & ->). discriminate (D2 eq_refl).
      * destruct (Q1 eq_refl eq_refl) as (_ & D3 & ->). split; [lia|]. split.
        -- intros l' ->. specialize (Ko _ eq_refl). destruct Oe as [L2 M2]. split; [exact L2|]. destruct M2 as [->|M2]; [left; lia|right; apply loose_40; exact M2].
        -- intros _ _. split; [lia|]. split; [exact D2|]. intros ->. destruct Oe as (_ & O1 & O2). split; [lia|]. destruct O2 as [->|O2]; [left; lia|right; exact O2].
Qed.
Lemma bracket a n x y wx wy l o c m : CST (PAction a (PSeq [PLit [x] wx; PPlus (PClass n [y] [] true); PLit [y] wy])) l o c m ->
  (starts (N.eqb x) l = false /\ o = None /\ m = len l /\ c <= 3) \/
  (starts (N.eqb x) l = true /\ c <= 2 * (len l - m) + 8 /\ (forall l', o = Some l' -> len l' < len l /\ m = len l')).
Proof.
  intros H. st H. st H. apply i_cons in H. destruct H as [[H ->]|(l1 & c1 & m1 & c2 & m2 & H & K & -> & ->)]; apply lit_one in H; destruct H as [-> [(E2 & -> & S2)|(t & -> & E2 & ->)]]; try discriminate.
  - left. repeat split; [exact S2|lia].
  - right. inversion E2; subst l1. cbn [starts]. rewrite N.eqb_refl, len_cons. split; [reflexivity|].
    apply i_cons in K. destruct K as [[K ->]|(l2 & c3 & m3 & c4 & m4 & K & Q & -> & ->)]; apply i_plus in K; destruct K as (k & l' & c0 & -> & K & E3); pose proof (csr_m _ _ _ _ _ _ K) as Mk; apply class_star in K; destruct K as (El & -> & -> & Kk);
      destruct (run_split (hit [y] [] true) t) as [R _]; rewrite <- El in R.
    + split; [lia|discriminate].
    + destruct k; [discriminate|]. inversion E3; subst l2. apply i_cons in Q. destruct Q as [[Q ->]|(l3 & c5 & m5 & c6 & m6 & Q & T & -> & ->)]; apply lit_one in Q; destruct Q as [-> [(E4 & -> & S4)|(t4 & E4 & E5 & ->)]]; try discriminate.
      * split; [lia|discriminate].
      * inversion E5; subst l3. apply i_nil in T. destruct T as (-> & -> & ->). rewrite E4, len_cons in *. split; [lia|]. intros l3 E6. inversion E6; subst l3. split; lia.
Qed.
Lemma operand_step l : (forall o c m, CST g_Value l o c m -> value_fine l o c m) -> forall o c m, CST g_Operand l o c m -> operand_fine l o c m.
Proof.
  intros Va o c m H. pose proof (cst_m _ _ _ _ _ H) as M. unfold g_Operand in H. lits H. st H. unfold operand_fine.
  assert (Last : forall o c m, CCH [PRef (str "Value")] l o c m -> exists c0, CST g_Value l o c0 m /\ c = 1 + c0).
  { clear - l. intros o c m H. apply i_hcons in H. destruct H as [(l1 & H & ->)|(c1 & m1 & c2 & m2 & H & K & -> & ->)]; rf g_Value H; [eauto|]. apply i_hnil in K. destruct K as (-> & -> & ->). pose proof (cst_m _ _ _ _ _ H).
    rewrite N.min_l by lia. eexists. split; [exact H|lia]. }
  assert (Nobr : forall x, starts (N.eqb x) l = true -> x = 60 \/ x = 91 \/ x = 123 -> quick l = false /\ starts lower l = false /\ starts (N.eqb 40) l = false /\ starts (N.eqb 95) l = false).
  { intros y S E. apply starts_eq in S. destruct S as (t & ->). destruct E as [->|[->| ->]]; repeat split; reflexivity. }
  assert (Br : forall x y (es : list pexp), x = 60 \/ x = 91 \/ x = 123 -> starts (N.eqb x) l = true -> forall c1 m1 o c2 m2, m1 <= len l -> c1 <= 2 * (len l - m1) + 8 ->
     (exists c0, CST g_Value l o c0 m2 /\ c2 <= y + 1 + c0) -> y <= 10 -> operand_fine l o (1 + (c1 + c2)) (N.min m1 m2)).
  { intros x0 y _ E S c1 m1 o0 c2 m2 Mm C1 (c0 & Hv & C2) Y. destruct (Nobr _ S E) as (N1 & N2 & N3 & N4). pose proof (cst_m _ _ _ _ _ Hv). apply Va in Hv. destruct Hv as (_ & _ & Qv). destruct (Qv N2 N3) as (D1 & D2 & D3). specialize (D2 N4). subst o0.
    split; [lia|]. split; [discriminate|congruence]. }
  apply i_hcons in H. destruct H as [(l1 & H & ->)|(c1 & m1 & c2 & m2 & H & K & -> & ->)].
  { apply bracket in H. destruct H as [(_ & E & _)|(S & C & Ok)]; [discriminate|]. destruct (Ok _ eq_refl) as [L ->]. destruct (Nobr 60 S) as (N1 & _); [auto|]. split; [lia|]. split; [intros l' E; inversion E; subst l'; auto|congruence]. }
  pose proof (cst_m _ _ _ _ _ H) as Mm1. apply bracket in H.
  apply i_hcons in K. destruct K as [(l1 & K & ->)|(c3 & m3 & c4 & m4 & K & Q & -> & ->)].
  { apply bracket in K. destruct K as [(_ & E & _)|(S & C & Ok)]; [discriminate|]. destruct (Ok _ eq_refl) as [L ->]. destruct (Nobr 91 S) as (N1 & _); [auto|].
    destruct H as [(_ & _ & -> & C1)|(S1 & _)]; [|apply starts_eq in S1; destruct S1 as (t & ->); discriminate]. split; [lia|]. split; [intros l' E; inversion E; subst l'; split; [lia|left; lia]|congruence]. }
  pose proof (cst_m _ _ _ _ _ K) as Mm3. apply bracket in K.
  apply i_hcons in Q. destruct Q as [(l1 & Q & ->)|(c5 & m5 & c6 & m6 & Q & T & -> & ->)].
  { apply bracket in Q. destruct Q as [(_ & E & _)|(S & C & Ok)]; [discriminate|]. destruct (Ok _ eq_refl) as [L ->]. destruct (Nobr 123 S) as (N1 & _); [auto|].
    destruct H as [(_ & _ & -> & C1)|(S1 & _)]; [|apply starts_eq in S1; destruct S1 as (t & ->); discriminate]. destruct K as [(_ & _ & -> & C3)|(S1 & _)]; [|apply starts_eq in S1; destruct S1 as (t & ->); discriminate].
    split; [lia|]. split; [intros l' E; inversion E; subst l'; split; [lia|left; lia]|congruence]. }
  pose proof (cst_m _ _ _ _ _ Q) as Mm5. apply bracket in Q. apply Last in T. destruct T as (c0 & T & ->). pose proof (cst_m _ _ _ _ _ T) as Mm6.
  assert (Only : forall x y, starts (N.eqb x) l = true -> starts (N.eqb y) l = true -> x = y) by (intros x0 y0 Sx Sy; apply starts_eq in Sx, Sy; destruct Sx as (t & ->), Sy as (t' & Ey); inversion Ey; reflexivity).
  destruct H as [(S1 & _ & -> & C1)|(S1 & C1 & _)].
  - destruct K as [(S2 & _ & -> & C3)|(S2 & C3 & _)].
    + destruct Q as [(S3 & _ & -> & C5)|(S3 & C5 & _)].
      * apply Va in T. destruct T as (D1 & D2 & D3). replace (N.min (len l) (N.min (len l) (N.min (len l) m6))) with m6 by lia. split; [lia|]. split; [exact D2|]. intros Qk.
        assert (N1 : starts lower l = false /\ starts (N.eqb 40) l = false).
        { destruct l as [|x0 t]; [discriminate|]. unfold quick in Qk. cbn [starts] in *. repeat rewrite orb_true_iff in Qk. rewrite !N.eqb_eq in Qk. destruct Qk as [[[-> | ->]| ->]| ->]; auto. }
        destruct N1 as [N1 N2]. destruct (D3 N1 N2) as (D4 & D5 & D6). split; [lia|]. split; [exact D5|exact D6].
      * replace (N.min (len l) (N.min (len l) (N.min m5 m6))) with (N.min m5 m6) by lia. replace (1 + (c1 + (c3 + (c5 + (1 + c0))))) with (1 + (c5 + (c1 + c3 + 1 + c0))) by lia.
        apply (Br 123 (c1 + c3) []); auto; [|lia]. exists c0. split; [exact T|lia].
    + destruct Q as [(S3 & _ & -> & C5)|(S3 & _)]; [|discriminate (Only _ _ S2 S3)].
      replace (N.min (len l) (N.min m3 (N.min (len l) m6))) with (N.min m3 m6) by lia. replace (1 + (c1 + (c3 + (c5 + (1 + c0))))) with (1 + (c3 + (c1 + c5 + 1 + c0))) by lia.
      apply (Br 91 (c1 + c5) []); auto; [|lia]. exists c0. split; [exact T|lia].
  - destruct K as [(S2 & _ & -> & C3)|(S2 & _)]; [|discriminate (Only _ _ S1 S2)]. destruct Q as [(S3 & _ & -> & C5)|(S3 & _)]; [|discriminate (Only _ _ S1 S3)].
    replace (N.min m1 (N.min (len l) (N.min (len l) m6))) with (N.min m1 m6) by lia. replace (1 + (c1 + (c3 + (c5 + (1 + c0))))) with (1 + (c1 + (c3 + c5 + 1 + c0))) by lia.
    apply (Br 60 (c3 + c5) []); auto; [|lia]. exists c0. split; [exact T|lia].
Qed.
Lemma value_all : forall l o c m, CST g_Value l o c m -> value_fine l o c m.
Proof.
  assert (H : forall n l, (List.length l < n)%nat -> forall o c m, CST g_Value l o c m -> value_fine l o c m).
  { induction n as [|n IH]; intros l L; [lia|]. apply value_step. apply sexpr_step. intros l' o c m L'. apply operand_step. apply IH. unfold len in L'. lia. }
  intros l. apply (H (S (List.length l))). lia.
Qed.

(** ** Rules *)
Definition any_not (e1 e2 : pexp) : pexp := PSeq [e1; e2].
Lemma cond_one l o c m : CST (PSeq [PAny; PNot (PLit [61; 62] (str """=>"""))]) l o c m -> c <= 4 /\ (forall l', o = Some l' -> len l' < len l).
Proof.
  intros H. st H. apply i_cons in H. destruct H as [[H ->]|(l1 & c1 & m1 & c2 & m2 & H & K & -> & ->)]; inversion H; subst.
  - split; [lia|discriminate].
  - rewrite len_cons. apply i_cons in K. destruct K as [[K ->]|(l2 & c3 & m3 & c4 & m4 & K & Q & -> & ->)]; apply i_not in K; destruct K as (o0 & c0 & -> & K & E); inversion K; subst.
    + split; [lia|discriminate].
    + apply i_nil in Q. destruct Q as (-> & -> & ->). split; [lia|]. intros l' E2. inversion E2; subst l'. destruct (strip _ _); inversion E; subst. lia.
Qed.
Lemma block_one l o c m : CST (PSeq [PNot (PClass (str "[ \t\r]") [32; 9; 13] [] false); PAny]) l o c m -> c <= 4 /\ (forall l', o = Some l' -> len l' < len l).
Proof.
  intros H. st H. apply i_cons in H. destruct H as [[K ->]|(l2 & c3 & m3 & c4 & m4 & K & Q & -> & ->)]; apply i_not in K; destruct K as (o0 & c0 & -> & K & E); apply class_look in K; destruct K as [-> K].
  - split; [lia|discriminate].
  - destruct o0 as [l3|]; inversion E; subst l2. apply i_cons in Q. destruct Q as [[Q ->]|(l3 & c5 & m5 & c6 & m6 & Q & T & -> & ->)]; inversion Q; subst.
    + split; [lia|discriminate].
    + apply i_nil in T. destruct T as (-> & -> & ->). split; [lia|]. intros l' E2. inversion E2; subst l'. rewrite len_cons. lia.
Qed.
Lemma star_flat e (k0 : N) : (forall l o c m, CST e l o c m -> c <= k0 /\ (forall l', o = Some l' -> len l' < len l)) ->
  forall l k l' c m, CSR e l k l' c m -> c <= k0 * (len l + 1).
Proof.
  intros One l k. revert l. induction k as [|k IH]; intros l l' c m H; apply i_star_loop in H; destruct H as [(E & -> & H)|(l1 & k1 & c1 & m1 & c2 & m2 & E & H & R & -> & ->)]; try discriminate.
  - apply One in H. nia.
  - inversion E; subst k1. apply IH in R. apply One in H. destruct H as [H1 H2]. specialize (H2 _ eq_refl). nia.
Qed.
Lemma ws0_flat l o c m : CST g_ws0 l o c m -> exists l', o = Some l' /\ c <= 5 * len l + 6 /\ len l' <= len l.
Proof. intros H. apply ws0 in H. destruct H as (l' & -> & S & C). apply SK_facts in S. exists l'. split; [reflexivity|]. lia. Qed.
Lemma ws1_flat l o c m : CST g_ws1 l o c m -> c <= 5 * len l + 6 /\ (forall l', o = Some l' -> len l' <= len l).
Proof. intros H. apply ws1 in H. destruct H as (l' & S & C & D). apply SK_facts in S. split; [lia|]. intros l1 ->. destruct D as [[D _]|[D _]]; inversion D; subst; lia. Qed.
Lemma lit_flat rs w l o c m : CST (PLit rs w) l o c m -> c = 1 /\ (forall l', o = Some l' -> len l' <= len l).
Proof. intros H. inversion H; subst. split; [reflexivity|]. intros l' E. destruct (strip_len rs l) as [_ X]. apply X in E. lia. Qed.
Lemma opt_flat n e l o c m : CST (PLabel n (POpt e)) l o c m -> exists o0 c0, CST e l o0 c0 m /\ c = c0 + 2 /\ exists l', o = Some l' /\ len l' <= len l.
Proof.
  intros H. st H. apply i_opt in H. destruct H as (o0 & c0 & -> & H & ->). exists o0, c0. split; [exact H|]. split; [lia|]. eexists. split; [reflexivity|]. destruct o0 as [l'|]; [apply (cst_ok _ _ _ _ _ H)|lia].
Qed.
Lemma rule_flat l o c m : CST g_Rule l o c m -> c <= 900 * (len l + 1) /\ (forall l', o = Some l' -> len l' < len l).
Proof.
  intros H. unfold g_Rule in H. lits H. st H. st H.
  apply i_cons in H. destruct H as [[H ->]|(l1 & c1 & m1 & c2 & m2 & H & K & -> & ->)]; st H; rf g_Value H; pose proof (cst_m _ _ _ _ _ H); apply value_all in H; destruct H as (C & Ok & _); [split; [lia|discriminate]|].
  destruct (Ok _ eq_refl) as [L1 _]. clear Ok.
  apply i_cons in K. destruct K as [[K _]|(l2 & c3 & m3 & c4 & m4 & K & Q & -> & ->)]; apply opt_flat in K; destruct K as (o0 & c0 & K & -> & l' & E & L2); [discriminate|]. inversion E; subst l'. clear E.
  assert (Cc : c0 <= 20 * (len l1 + 1)).
  { clear - K. st K. apply i_cons in K. destruct K as [[K ->]|(l3 & c5 & m5 & c6 & m6 & K & Q & -> & ->)]; apply ws1_flat in K; destruct K as [C1 L1]; [lia|]. specialize (L1 _ eq_refl).
    apply i_cons in Q. destruct Q as [[K ->]|(l4 & c7 & m7 & c8 & m8 & K & Q & -> & ->)]; apply lit_flat in K; destruct K as [-> L2]; [lia|]. specialize (L2 _ eq_refl).
    apply i_cons in Q. destruct Q as [[K ->]|(l5 & c9 & m9 & c10 & m10 & K & Q & -> & ->)]; apply ws1_flat in K; destruct K as [C3 L3]; [lia|]. specialize (L3 _ eq_refl).
    assert (Co : forall l o c m, CST g_Condition l o c m -> c <= 4 * (len l + 1) + 2).
    { clear. intros l o c m H. unfold g_Condition in H. lits H. st H. apply i_plus in H. destruct H as (k & l' & c0 & -> & H & _). apply (star_flat _ 4 cond_one) in H. lia. }
    apply i_cons in Q. destruct Q as [[K ->]|(l6 & c11 & m11 & c12 & m12 & K & Q & -> & ->)]; apply Co in K; [lia|]. apply i_nil in Q. destruct Q as (_ & -> & _). lia. }
  clear K.
  apply i_cons in Q. destruct Q as [[K _]|(l3 & c5 & m5 & c6 & m6 & K & Q & -> & ->)]; apply ws0_flat in K; destruct K as (l' & E & C5 & L3); [discriminate|]. inversion E; subst l'. clear E.
  apply i_cons in Q. destruct Q as [[K ->]|(l4 & c7 & m7 & c8 & m8 & K & Q & -> & ->)]; apply lit_flat in K; destruct K as [-> L4]; [split; [lia|discriminate]|]. specialize (L4 _ eq_refl).
  apply i_cons in Q. destruct Q as [[K _]|(l5 & c9 & m9 & c10 & m10 & K & Q & -> & ->)]; apply ws0_flat in K; destruct K as (l' & E & C9 & L5); [discriminate|]. inversion E; subst l'. clear E.
  apply i_cons in Q. destruct Q as [[K _]|(l6 & c11 & m11 & c12 & m12 & K & Q & -> & ->)]; apply opt_flat in K; destruct K as (o1 & c13 & K & -> & l' & E & L6); [discriminate|]. inversion E; subst l'. clear E.
  assert (Cb : c13 <= 4 * (len l5 + 1) + 4).
  { clear - K. unfold g_Block in K. lits K. st K. st K. apply i_cons in K. destruct K as [[K ->]|(l7 & c14 & m14 & c15 & m15 & K & Q & -> & ->)]; apply lit_flat in K; destruct K as [-> L7]; [lia|]. specialize (L7 _ eq_refl).
    assert (Co : forall l o c m, CST (PPlus (PSeq [PNot (PClass (str "[ \t\r]") [32; 9; 13] [] false); PAny])) l o c m -> c <= 4 * (len l + 1) + 1).
    { clear. intros l o c m H. apply i_plus in H. destruct H as (k & l' & c0 & -> & H & _). apply (star_flat _ 4 block_one) in H. lia. }
    apply i_cons in Q. destruct Q as [[K ->]|(l8 & c16 & m16 & c17 & m17 & K & Q & -> & ->)]; apply Co in K; [lia|]. apply i_nil in Q. destruct Q as (_ & -> & _). lia. }
  clear K.
  apply i_cons in Q. destruct Q as [[K _]|(l7 & c14 & m14 & c15 & m15 & K & Q & -> & ->)]; apply ws0_flat in K; destruct K as (l' & E & C14 & L7); [discriminate|]. inversion E; subst l'. clear E.
  apply i_cons in Q. destruct Q as [[K ->]|(l8 & c16 & m16 & c17 & m17 & K & Q & -> & ->)]; st K; rf g_Value K; pose proof (cst_m _ _ _ _ _ K); apply value_all in K; destruct K as (C8 & Ok & _); [split; [lia|discriminate]|].
  destruct (Ok _ eq_refl) as [L8 _]. apply i_nil in Q. destruct Q as (-> & -> & _). split; [lia|]. intros l' E. inversion E; subst l'. lia.
Qed.

(** ** Files *)
Lemma file_one l o c m : CST (PSeq [g_ws0; PRef (str "Rule"); g_ws0]) l o c m -> c <= 920 * (len l + 1) /\ (forall l', o = Some l' -> len l' < len l).
Proof.
  intros H. st H. apply i_cons in H. destruct H as [[K _]|(l3 & c5 & m5 & c6 & m6 & K & Q & -> & ->)]; apply ws0_flat in K; destruct K as (l' & E & C5 & L3); [discriminate|]. inversion E; subst l'. clear E.
  apply i_cons in Q. destruct Q as [[K ->]|(l4 & c7 & m7 & c8 & m8 & K & Q & -> & ->)]; rf g_Rule K; apply rule_flat in K; destruct K as [C L]; [split; [lia|discriminate]|]. specialize (L _ eq_refl).
  apply i_cons in Q. destruct Q as [[K _]|(l5 & c9 & m9 & c10 & m10 & K & Q & -> & ->)]; apply ws0_flat in K; destruct K as (l' & E & C9 & L5); [discriminate|]. inversion E; subst l'. clear E.
  apply i_nil in Q. destruct Q as (-> & -> & _). split; [lia|]. intros l' E. inversion E; subst l'. lia.
Qed.
Lemma file_flat l o c m : CST g_File l o c m -> c <= 1000 * ((len l + 1) * (len l + 1)).
Proof.
  intros H. unfold g_File in H. st H. st H.
  assert (St : forall n k l l' c m, (List.length l <= n)%nat -> CSR (PSeq [g_ws0; PRef (str "Rule"); g_ws0]) l k l' c m -> c <= 920 * ((len l + 1) * (len l + 1))).
  { clear. intros n k l. revert n l. induction k as [|k IH]; intros n l l' c m L H; apply i_star_loop in H; destruct H as [(E & -> & H)|(l1 & k1 & c1 & m1 & c2 & m2 & E & H & R & -> & ->)]; try discriminate.
    - apply file_one in H. destruct H. nia.
    - inversion E; subst k1. apply file_one in H. destruct H as [C H]. specialize (H _ eq_refl). apply (IH (List.length l1)) in R; [|lia].
      assert ((len l1 + 1) * (len l1 + 1) <= len l * (len l + 1)) by nia. nia. }
  apply i_cons in H. destruct H as [[K _]|(l3 & c5 & m5 & c6 & m6 & K & Q & -> & ->)]; st K; apply i_star in K; destruct K as (k & l' & c0 & -> & K & E); [discriminate|]. apply (St (List.length l)) in K; [|lia].
  apply i_cons in Q. assert (Ca : forall l o c m, CST (PNot PAny) l o c m -> c = 2). { clear. intros l o c m H. apply i_not in H. destruct H as (o0 & c0 & -> & H & _). inversion H; subst; lia. }
  destruct Q as [[Q _]|(l4 & c7 & m7 & c8 & m8 & Q & T & -> & ->)]; apply Ca in Q; subst.
  - nia.
  - apply i_nil in T. destruct T as (_ & -> & _). nia.
Qed.
