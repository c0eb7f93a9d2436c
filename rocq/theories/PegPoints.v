(** Invariants of the parser engine: the points it visits, recorded errors. *)
From Verif Require Import Text GoAst Ast Utf8 Peg.
From Coq Require Import NArith Arith Bool Lia.
Open Scope N_scope.

(** * UTF-8 decoding *)
Lemma byte_val_lt c : byte_val c < 256.
Proof. unfold byte_val. destruct c as [[] [] [] [] [] [] [] []]; vm_compute; reflexivity. Qed.

Lemma decode_nil : decode_rune [] = (RuneError, 0%nat). Proof. reflexivity. Qed.
Lemma decode_cons c t : exists r n, decode_rune (c :: t) = (r, n) /\ (1 <= n <= List.length (c :: t))%nat.
Proof.
  unfold decode_rune. cbn [List.length].
  repeat match goal with
  | |- context [if ?b then _ else _] => destruct b
  | |- context [match ?l with [] => _ | _ :: _ => _ end] => destruct l
  end; do 2 eexists; (split; [reflexivity|]); cbn [List.length]; lia.
Qed.
Lemma decode_width t : (snd (decode_rune t) <= List.length t)%nat.
Proof. destruct t; [cbn; lia|]. destruct (decode_cons a t) as [r [n [-> H]]]. cbn [snd]. lia. Qed.
Lemma decode_ascii c t : byte_val c < 128 -> decode_rune (c :: t) = (byte_val c, 1%nat).
Proof. intros H. unfold decode_rune. destruct (N.ltb_spec (byte_val c) 128); [reflexivity|lia]. Qed.
(** A rune below 128 is a single byte. *)
Lemma decode_small c t r n : decode_rune (c :: t) = (r, n) -> r < 128 -> r = byte_val c /\ n = 1%nat /\ byte_val c < 128.
Proof.
  unfold decode_rune, cont, RuneError. intros E Hr. pose proof (byte_val_lt c).
  destruct (N.ltb_spec (byte_val c) 128); [inversion E; subst; auto|]. exfalso.
  repeat match type of E with
  | context [if ?b then _ else _] => let X := fresh "X" in destruct b eqn:X
  | context [match ?l with [] => _ | _ :: _ => _ end] => destruct l
  end; inversion E; subst;
  repeat match goal with H : context [if ?b then _ else _] |- _ => let X := fresh "X" in destruct b eqn:X end;
  rewrite ?andb_true_iff, ?N.leb_le, ?N.eqb_eq, ?N.eqb_neq in *; lia.
Qed.
Lemma decode_big c t r n : decode_rune (c :: t) = (r, n) -> byte_val c >= 128 -> 128 <= r.
Proof.
  intros E H. destruct (N.ltb_spec r 128) as [L|L]; [|exact L]. apply (decode_small c t r n E) in L. lia.
Qed.

Lemma skipn_skipn {A} a b (l : list A) : skipn a (skipn b l) = skipn (b + a) l.
Proof. revert l. induction b as [|b IH]; intros l; [reflexivity|]. destruct l; [rewrite !skipn_nil; reflexivity|]. cbn. apply IH. Qed.

(** * The points of a text *)
Definition origin (data : text) : savepoint := mkPt (mkPos 1 0 0) data 0 0.
Fixpoint pts (data : text) (i : nat) : savepoint :=
  match i with O => read_pt (origin data) | S i => read_pt (pts data i) end.

Definition invalid (p : savepoint) : bool := (rn p =? RuneError) && (w p =? 1)%nat.

(** The i-th point, reached by moving over i runes before the end. *)
Definition before_end (data : text) (i : nat) : Prop := forall j, (j < i)%nat -> rest (pts data j) <> [].
Definition at_point (data : text) (i : nat) (p : savepoint) : Prop := p = pts data i /\ before_end data i.
Definition Reach (data : text) (p : savepoint) : Prop := exists i, at_point data i p.
Definition Clean (data : text) (p : savepoint) : Prop :=
  exists i, at_point data i p /\ forall j, (j <= i)%nat -> invalid (pts data j) = false.

Lemma read_pt_decoded p : decode_rune (rest (read_pt p)) = (rn (read_pt p), w (read_pt p)).
Proof. unfold read_pt. destruct (decode_rune (skipn (w p) (rest p))) as [c n] eqn:E. cbn. exact E. Qed.
Lemma read_pt_rest p : rest (read_pt p) = skipn (w p) (rest p).
Proof. unfold read_pt. destruct (decode_rune _). reflexivity. Qed.
Lemma read_pt_offset p : offset (pos (read_pt p)) = offset (pos p) + N.of_nat (w p).
Proof. unfold read_pt. destruct (decode_rune _). reflexivity. Qed.

Lemma pts_decoded data i : decode_rune (rest (pts data i)) = (rn (pts data i), w (pts data i)).
Proof. destruct i; apply read_pt_decoded. Qed.

Lemma pts_offset data i : rest (pts data i) = skipn (N.to_nat (offset (pos (pts data i)))) data /\
  (N.to_nat (offset (pos (pts data i))) <= List.length data)%nat.
Proof.
  induction i as [|i [IH L]]; cbn [pts].
  - rewrite read_pt_rest, read_pt_offset. cbn. split; [reflexivity|lia].
  - rewrite read_pt_rest, read_pt_offset. rewrite N2Nat.inj_add, Nat2N.id.
    pose proof (decode_width (rest (pts data i))) as W. rewrite pts_decoded in W. cbn [snd] in W.
    split.
    + rewrite IH at 1. rewrite skipn_skipn. reflexivity.
    + rewrite IH, skipn_length in W. lia.
Qed.

Lemma pts_width data i : rest (pts data i) <> [] -> (1 <= w (pts data i))%nat.
Proof.
  intros H. pose proof (pts_decoded data i) as D. destruct (rest (pts data i)) as [|c t]; [contradiction|].
  destruct (decode_cons c t) as [r [n [E L]]]. rewrite E in D. inversion D; subst. lia.
Qed.
Lemma pts_step data i : rest (pts data i) <> [] -> offset (pos (pts data i)) < offset (pos (pts data (S i))).
Proof. intros H. cbn [pts]. rewrite read_pt_offset. apply pts_width in H. lia. Qed.

Lemma pts_mono data i j : before_end data j -> (i < j)%nat -> offset (pos (pts data i)) < offset (pos (pts data j)).
Proof.
  intros B H. induction H as [|j H IH].
  - apply pts_step. apply B. lia.
  - eapply N.lt_trans; [apply IH; intros k Hk; apply B; lia|]. apply pts_step. apply B. lia.
Qed.

Lemma at_point_unique data i j p q : at_point data i p -> at_point data j q ->
  offset (pos p) = offset (pos q) -> i = j.
Proof.
  intros [-> B] [-> B'] E. destruct (Nat.lt_trichotomy i j) as [H|[H|H]]; [|exact H|].
  - pose proof (pts_mono data i j B' H). lia.
  - pose proof (pts_mono data j i B H). lia.
Qed.
Lemma Reach_unique data p q : Reach data p -> Reach data q -> offset (pos p) = offset (pos q) -> p = q.
Proof.
  intros [i A] [j B] E. pose proof (at_point_unique _ _ _ _ _ A B E) as <-. destruct A as [-> _], B as [-> _]. reflexivity.
Qed.
Lemma Clean_Reach data p : Clean data p -> Reach data p.
Proof. intros [i [A _]]. exists i. exact A. Qed.
Lemma Reach_start data : Reach data (pts data 0).
Proof. exists 0%nat. split; [reflexivity|]. intros j H. lia. Qed.
Lemma Reach_read data p : Reach data p -> rest p <> [] -> Reach data (read_pt p).
Proof.
  intros [i [-> B]] H. exists (S i). split; [reflexivity|]. intros j Hj.
  destruct (Nat.eq_dec j i) as [->|]; [exact H|]. apply B. lia.
Qed.
Lemma Clean_read data p : Clean data p -> rest p <> [] -> invalid (read_pt p) = false -> Clean data (read_pt p).
Proof.
  intros [i [[-> B] V]] H N. exists (S i). split.
  - split; [reflexivity|]. intros j Hj. destruct (Nat.eq_dec j i) as [->|]; [exact H|]. apply B. lia.
  - intros j Hj. destruct (Nat.eq_dec j (S i)) as [->|]; [exact N|]. apply V. lia.
Qed.
Lemma Reach_decoded data p : Reach data p -> decode_rune (rest p) = (rn p, w p).
Proof. intros [i [-> _]]. apply pts_decoded. Qed.
Lemma Reach_rest data p : Reach data p -> rest p = skipn (N.to_nat (offset (pos p))) data /\
  (N.to_nat (offset (pos p)) <= List.length data)%nat.
Proof. intros [i [-> _]]. apply pts_offset. Qed.
Lemma Reach_eof data p : Reach data p -> at_eof p = true <-> rest p = [].
Proof.
  intros R. apply Reach_decoded in R. unfold at_eof. destruct (rest p) as [|c t].
  - rewrite decode_nil in R. inversion R. cbn. tauto.
  - destruct (decode_cons c t) as [r [n [E L]]]. rewrite E in R. inversion R; subst.
    destruct (Nat.eqb_spec (w p) 0); [lia|]. rewrite andb_false_r. split; discriminate.
Qed.

(** * Errors and failure positions *)
(** The text and offset determine line and column: a point's position is that of
    some point; the farthest-failure position starts as 1:1 (0). *)
Definition pos_ok (data : text) (q : position) : Prop :=
  (exists p, Reach data p /\ q = pos p) \/ q = mkPos 1 1 0.
Definition err_ok (data : text) (e : perror) : Prop := pos_ok data (e_pos e).

Record Inv (data : text) (s : pstate) : Prop := {
  inv_pt : Reach data (pt s);
  inv_clean : errs s = [] -> Clean data (pt s);
  inv_errs : Forall (err_ok data) (errs s);
  inv_fail : pos_ok data (fail_pos s)
}.
(** More errors, same or later point. *)
Definition grows (s s' : pstate) : Prop := exists more, errs s' = errs s ++ more.
Lemma grows_refl s : grows s s. Proof. exists []. rewrite app_nil_r. reflexivity. Qed.
Lemma grows_trans a b c : grows a b -> grows b c -> grows a c.
Proof. intros [m E] [m' E']. exists (m ++ m'). rewrite E', E, app_assoc. reflexivity. Qed.
Lemma grows_nil s s' : grows s s' -> errs s' = [] -> errs s = [].
Proof. intros [m E] H. rewrite H in E. symmetry in E. apply app_eq_nil in E. apply E. Qed.
Lemma grows_errs s s' : errs s' = errs s -> grows s s'.
Proof. intros E. exists []. rewrite app_nil_r. exact E. Qed.

(** Changing only the failure bookkeeping. *)
Definition same_core (s s' : pstate) : Prop := pt s' = pt s /\ errs s' = errs s.
Lemma failAt_core b q m s : same_core s (failAt b q m s).
Proof.
  unfold failAt, same_core. destruct (Bool.eqb b (fail_invert s)); [|auto]. destruct (offset q <? offset (fail_pos s)); [auto|].
  destruct (offset (fail_pos s) <? offset q); auto.
Qed.
Lemma failAt_inv data b p m s : Inv data s -> Reach data p -> Inv data (failAt b (pos p) m s).
Proof.
  intros [A B C D] R. destruct (failAt_core b (pos p) m s) as [E1 E2].
  constructor; rewrite ?E1, ?E2; auto.
  unfold failAt. destruct (Bool.eqb b (fail_invert s)); [|exact D]. destruct (_ <? _); [exact D|].
  destruct (_ <? _); cbn; [|exact D]. left. eauto.
Qed.
Lemma set_invert_inv data b s : Inv data s -> Inv data (set_invert b s).
Proof. intros [A B C D]. constructor; assumption. Qed.
Lemma addErrAt_inv data m p r x s : Inv data s -> Reach data p -> Inv data (addErrAt m (pos p) r x s).
Proof.
  intros [A B C D] R. constructor; cbn; auto.
  - intros E. destruct (errs s); discriminate.
  - apply Forall_app. split; [exact C|]. constructor; [|constructor]. left. exists p. auto.
Qed.
Lemma read_inv data r s : Inv data s -> rest (pt s) <> [] -> Inv data (read r s).
Proof.
  intros I H. unfold read. pose proof (Reach_read _ _ (inv_pt _ _ I) H) as R.
  destruct I as [A B C D].
  change ((rn (read_pt (pt s)) =? RuneError) && (w (read_pt (pt s)) =? 1)%nat) with (invalid (read_pt (pt s))).
  destruct (invalid (read_pt (pt s))) eqn:V.
  - constructor; cbn; auto.
    + intros E. destruct (errs s); discriminate.
    + apply Forall_app. split; [exact C|]. constructor; [|constructor]. left. exists (read_pt (pt s)). auto.
  - constructor; cbn; auto. intros E. apply Clean_read; auto.
Qed.
Lemma read_pt_eq r s : pt (read r s) = read_pt (pt s).
Proof. unfold read. destruct (_ && _); reflexivity. Qed.
Lemma read_grows r s : grows s (read r s).
Proof. unfold read. destruct (_ && _); [eexists; reflexivity|apply grows_errs; reflexivity]. Qed.

Lemma restore_pt data s p : Reach data (pt s) -> Reach data p -> pt (restore p s) = p.
Proof.
  intros R R'. unfold restore. destruct (N.eqb_spec (offset (pos p)) (offset (pos (pt s)))) as [E|]; [|reflexivity].
  symmetry. eapply Reach_unique; eauto.
Qed.
Lemma restore_errs p s : errs (restore p s) = errs s.
Proof. unfold restore. destruct (_ =? _); reflexivity. Qed.
Lemma restore_fail p s : fail_pos (restore p s) = fail_pos s.
Proof. unfold restore. destruct (_ =? _); reflexivity. Qed.
Lemma restore_inv data s0 s : Inv data s0 -> Inv data s -> grows s0 s -> Inv data (restore (pt s0) s).
Proof.
  intros [A B C D] [A' B' C' D'] G. constructor.
  - rewrite (restore_pt data s (pt s0)); auto.
  - rewrite restore_errs, (restore_pt data s (pt s0)); auto. intros E. apply B. eapply grows_nil; eauto.
  - rewrite restore_errs. exact C'.
  - rewrite restore_fail. exact D'.
Qed.

(** Length of what remains. *)
Definition left_ (s : pstate) : nat := List.length (rest (pt s)).
Lemma left_eq s s' : pt s' = pt s -> left_ s' = left_ s.
Proof. unfold left_. intros ->. reflexivity. Qed.
Lemma read_left data r s : Inv data s -> rest (pt s) <> [] -> (left_ (read r s) < left_ s)%nat.
Proof.
  intros I H. unfold left_. rewrite read_pt_eq, read_pt_rest.
  pose proof (Reach_decoded _ _ (inv_pt _ _ I)) as D. destruct (rest (pt s)) as [|c t]; [contradiction|].
  destruct (decode_cons c t) as [rr [n [E L]]]. rewrite E in D. inversion D; subst.
  rewrite skipn_length. cbn [List.length] in *. lia.
Qed.

(** One step of the engine, form by form. *)
Section Steps.
  Context {A : Type}.
  Variable run_action : A -> text -> env -> ares.
  Variable grammar : text -> option (pexpr A).
  Notation PE := (parse_expr run_action grammar).
  Notation SL := (star_loop run_action grammar).
  Lemma pe_O rule e en s : PE 0%nat rule e en s = OutOfFuel. Proof. reflexivity. Qed.
  Lemma sl_O rule e vals s : SL 0%nat rule e vals s = OutOfFuel. Proof. reflexivity. Qed.
  Lemma pe_action n rule a e en s : PE (S n) rule (PAction a e) en s =
    match PE n rule e en s with
    | PRes v true en' s' =>
        match run_action a (sliceFrom (pt s) s') en' with
        | AOk v' => PRes v' true en' s'
        | AErr msg v' => PRes v' true en' (addErrAt msg (pos (pt s)) (Some rule) [] s')
        | APanic msg => PPanic msg rule s'
        end
    | r => r
    end.
  Proof. reflexivity. Qed.
  Lemma pe_choice n rule es en s : PE (S n) rule (PChoice es) en s = choice_loop (PE n rule) es en s.
  Proof. reflexivity. Qed.
  Lemma pe_label n rule l e en s : PE (S n) rule (PLabel l e) en s =
    match PE n rule e [] s with
    | PRes v true _ s' => PRes v true ((l, v) :: en) s'
    | PRes v false _ s' => PRes v false en s'
    | r => r
    end.
  Proof. reflexivity. Qed.
  Lemma pe_seq n rule es en s : PE (S n) rule (PSeq es) en s = seq_loop (PE n rule) (pt s) es [] en s.
  Proof. reflexivity. Qed.
  Lemma pe_not n rule e en s : PE (S n) rule (PNot e) en s =
    match PE n rule e [] (set_invert (negb (fail_invert s)) s) with
    | PRes _ ok _ s' => PRes VNil (negb ok) en (restore (pt s) (set_invert (negb (fail_invert s')) s'))
    | r => r
    end.
  Proof. reflexivity. Qed.
  Lemma pe_opt n rule e en s : PE (S n) rule (POpt e) en s =
    match PE n rule e [] s with PRes v _ _ s' => PRes v true en s' | r => r end.
  Proof. reflexivity. Qed.
  Lemma pe_star n rule e en s : PE (S n) rule (PStar e) en s =
    match SL n rule e [] s with PRes v ok _ s' => PRes v ok en s' | r => r end.
  Proof. reflexivity. Qed.
  Lemma pe_plus n rule e en s : PE (S n) rule (PPlus e) en s =
    match SL n rule e [] s with
    | PRes (VSlice []) _ _ s' => PRes VNil false en s'
    | PRes v ok _ s' => PRes v ok en s'
    | r => r
    end.
  Proof. reflexivity. Qed.
  Lemma pe_ref n rule name en s : PE (S n) rule (PRef name) en s =
    match grammar name with
    | None => PRes VNil false en (addErrAt (str "undefined rule: " ++ name) (pos (pt s)) (Some rule) [] s)
    | Some body => match PE n name body [] s with PRes v ok _ s' => PRes v ok en s' | r => r end
    end.
  Proof. reflexivity. Qed.
  Lemma pe_lit n rule v want en s : PE (S n) rule (PLit v want) en s =
    let '(x, ok, s') := parse_lit rule v want s in PRes x ok en s'.
  Proof. reflexivity. Qed.
  Lemma pe_class n rule v cs rs inv en s : PE (S n) rule (PClass v cs rs inv) en s =
    let '(x, ok, s') := parse_class rule v cs rs inv s in PRes x ok en s'.
  Proof. reflexivity. Qed.
  Lemma pe_any n rule en s : PE (S n) rule PAny en s = let '(x, ok, s') := parse_any rule s in PRes x ok en s'.
  Proof. reflexivity. Qed.
  Lemma sl_S n rule e vals s : SL (S n) rule e vals s =
    match PE n rule e [] s with
    | PRes v true _ s' => SL n rule e (vals ++ [v]) s'
    | PRes _ false _ s' => PRes (VSlice vals) true [] s'
    | r => r
    end.
  Proof. reflexivity. Qed.
End Steps.
(** Rewrites one step of the engine. *)
Ltac step_engine := first [ rewrite pe_action | rewrite pe_choice | rewrite pe_label | rewrite pe_seq
  | rewrite pe_not | rewrite pe_opt | rewrite pe_star | rewrite pe_plus | rewrite pe_ref | rewrite pe_lit
  | rewrite pe_class | rewrite pe_any ].

Section Engine.
  Context {A : Type}.
  Variable run_action : A -> text -> env -> ares.
  Variable grammar : text -> option (pexpr A).
  Variable data : text.

  Notation PE := (parse_expr run_action grammar).
  Notation SL := (star_loop run_action grammar).

  (** Literals are ASCII and not empty. *)
  Fixpoint ascii_lits (e : pexpr A) : bool :=
    match e with
    | PAction _ e | PLabel _ e | PNot e | POpt e | PStar e | PPlus e => ascii_lits e
    | PChoice es | PSeq es => forallb ascii_lits es
    | PLit rs _ => forallb (fun r => r <? 128) rs
    | _ => true
    end.
  Hypothesis grammar_lits : forall n b, grammar n = Some b -> ascii_lits b = true.

  (** What a call does to the state. *)
  Definition effect (s : pstate) (r : pres) : Prop :=
    match r with
    | OutOfFuel => True
    | PPanic _ _ s' => Inv data s' /\ grows s s'
    | PRes _ ok _ s' => Inv data s' /\ grows s s' /\ (left_ s' <= left_ s)%nat /\ (ok = false -> pt s' = pt s)
    end.

  Lemma lit_loop_effect rule rs : forall s b s', forallb (fun r => r <? 128) rs = true -> Inv data s ->
    lit_loop rule rs s = (b, s') -> Inv data s' /\ grows s s' /\ (left_ s' <= left_ s)%nat /\
      (b = true -> rs <> [] -> (left_ s' < left_ s)%nat).
  Proof.
    induction rs as [|r rs IH]; intros s b s' L I E; cbn [lit_loop] in E.
    - inversion E; subst. split; [exact I|]. split; [apply grows_refl|]. split; [lia|contradiction].
    - cbn in L. apply andb_true_iff in L. destruct L as [Lr L]. apply N.ltb_lt in Lr.
      destruct (N.eqb_spec (rn (pt s)) r) as [X|X].
      + assert (H : rest (pt s) <> []).
        { intros H. pose proof (Reach_decoded _ _ (inv_pt _ _ I)) as D. rewrite H, decode_nil in D. inversion D as [[D1 D2]].
          rewrite <- D1 in X. unfold RuneError in X. lia. }
        apply IH in E; [|exact L|apply read_inv; assumption].
        pose proof (read_left data (Some rule) s I H). destruct E as (E1 & E2 & E3 & _).
        split; [exact E1|]. split; [eapply grows_trans; [apply read_grows|exact E2]|]. split; intros; lia.
      + inversion E; subst. split; [exact I|]. split; [apply grows_refl|]. split; [lia|discriminate].
  Qed.

  Lemma core_effect s s1 s2 : same_core s1 s2 -> grows s s1 -> grows s s2.
  Proof. intros [_ E] G. destruct G as [m G]. exists m. congruence. Qed.

  Lemma parse_lit_effect rule rs want en s : forallb (fun r => r <? 128) rs = true -> Inv data s ->
    effect s (let '(x, ok, s') := parse_lit rule rs want s in PRes x ok en s').
  Proof.
    intros L I. unfold parse_lit. destruct (lit_loop rule rs s) as [b s1] eqn:E.
    destruct (lit_loop_effect rule rs s b s1 L I E) as (I1 & G1 & L1 & _).
    destruct b; cbn [effect].
    - pose proof (failAt_core true (pos (pt s)) want s1) as C.
      split; [apply failAt_inv; [exact I1|apply I]|]. split; [eapply core_effect; eauto|].
      split; [rewrite (left_eq _ _ (proj1 C)); exact L1|discriminate].
    - pose proof (failAt_core false (pos (pt s)) want s1) as C.
      assert (I2 : Inv data (failAt false (pos (pt s)) want s1)) by (apply failAt_inv; [exact I1|apply I]).
      assert (G2 : grows s (failAt false (pos (pt s)) want s1)) by (eapply core_effect; eauto).
      assert (P : pt (restore (pt s) (failAt false (pos (pt s)) want s1)) = pt s)
        by (eapply restore_pt; [apply I2|apply I]).
      split; [apply restore_inv; assumption|]. split; [eapply grows_trans; [exact G2|apply grows_errs, restore_errs]|].
      split; [rewrite (left_eq _ _ P); lia|auto].
  Qed.

  Lemma step_effect rule s want en v : Inv data s -> rest (pt s) <> [] ->
    effect s (PRes v true en (failAt true (pos (pt s)) want (read (Some rule) s))).
  Proof.
    intros I H. pose proof (failAt_core true (pos (pt s)) want (read (Some rule) s)) as C.
    cbn [effect]. split; [apply failAt_inv; [apply read_inv; assumption|apply I]|].
    split; [eapply core_effect; [exact C|apply read_grows]|].
    split; [|discriminate]. rewrite (left_eq _ _ (proj1 C)). pose proof (read_left data (Some rule) s I H). lia.
  Qed.
  Lemma nostep_effect s want en v b : Inv data s -> effect s (PRes v false en (failAt b (pos (pt s)) want s)).
  Proof.
    intros I. destruct (failAt_core b (pos (pt s)) want s) as [C1 C2].
    cbn [effect]. split; [apply failAt_inv; [exact I|apply I]|]. split; [apply grows_errs; exact C2|].
    split; [rewrite (left_eq _ _ C1); lia|auto].
  Qed.

  Lemma not_eof s : Inv data s -> at_eof (pt s) = false -> rest (pt s) <> [].
  Proof. intros I E H. apply (Reach_eof data) in H; [|apply I]. congruence. Qed.

  Lemma parse_any_effect rule en s : Inv data s -> effect s (let '(x, ok, s') := parse_any rule s in PRes x ok en s').
  Proof.
    intros I. unfold parse_any. destruct (at_eof (pt s)) eqn:E; [apply nostep_effect; exact I|].
    apply step_effect; [exact I|]. apply not_eof; assumption.
  Qed.
  Lemma parse_class_effect rule v cs rs inv en s : Inv data s ->
    effect s (let '(x, ok, s') := parse_class rule v cs rs inv s in PRes x ok en s').
  Proof.
    intros I. unfold parse_class. destruct (at_eof (pt s)) eqn:E; [apply nostep_effect; exact I|].
    destruct (xorb _ _); [|apply nostep_effect; exact I].
    apply step_effect; [exact I|]. apply not_eof; assumption.
  Qed.

  Lemma effect_trans_ok s s1 v ok en r : effect s (PRes v ok en s1) -> effect s1 r ->
    match r with PRes v2 ok2 en2 s2 => effect s (PRes v2 true en2 s2) | r => effect s r end.
  Proof.
    intros (I & G & L & _) E. destruct r as [|m rl s3|v3 ok3 en3 s3]; cbn [effect] in *; [exact Logic.I|..].
    - destruct E as [I' G']. split; [exact I'|eapply grows_trans; eauto].
    - destruct E as (I' & G' & L' & _). split; [exact I'|]. split; [eapply grows_trans; eauto|]. split; [lia|discriminate].
  Qed.

  Lemma seq_effect n rule s0 es : Inv data s0 ->
    (forall rule e en s, ascii_lits e = true -> Inv data s -> effect s (PE n rule e en s)) ->
    forallb ascii_lits es = true -> forall vals en s, Inv data s -> grows s0 s -> (left_ s <= left_ s0)%nat ->
    effect s0 (seq_loop (PE n rule) (pt s0) es vals en s).
  Proof.
    intros I0 IH. induction es as [|e es IHes]; intros L vals en s I G Lf; cbn [seq_loop].
    - cbn [effect]. split; [exact I|]. split; [exact G|]. split; [exact Lf|discriminate].
    - cbn in L. apply andb_true_iff in L. destruct L as [Le L].
      pose proof (IH rule e en s Le I) as H. destruct (PE n rule e en s) as [|m rl s3|v [] en' s3]; cbn [effect] in *; auto.
      + destruct H as [H1 H2]. split; [exact H1|eapply grows_trans; eauto].
      + destruct H as (H1 & H2 & H3 & _). apply IHes; auto; [eapply grows_trans; eauto|lia].
      + destruct H as (H1 & H2 & H3 & H4).
        assert (G3 : grows s0 s3) by (eapply grows_trans; eauto).
        assert (P : pt (restore (pt s0) s3) = pt s0) by (eapply restore_pt; [apply H1|apply I0]).
        split; [apply restore_inv; assumption|].
        split; [eapply grows_trans; [exact G3|apply grows_errs, restore_errs]|].
        split; [rewrite (left_eq _ _ P); lia|auto].
  Qed.

  Lemma choice_effect n rule es : 
    (forall rule e en s, ascii_lits e = true -> Inv data s -> effect s (PE n rule e en s)) ->
    forallb ascii_lits es = true -> forall en s, Inv data s -> effect s (choice_loop (PE n rule) es en s).
  Proof.
    intros IH. induction es as [|e es IHes]; intros L en s I; cbn [choice_loop].
    - cbn [effect]. split; [exact I|]. split; [apply grows_refl|]. split; [lia|auto].
    - cbn in L. apply andb_true_iff in L. destruct L as [Le L].
      pose proof (IH rule e [] s Le I) as H. destruct (PE n rule e [] s) as [|m rl s3|v [] en' s3]; auto.
      destruct H as (H1 & H2 & H3 & H4). specialize (H4 eq_refl).
      pose proof (IHes L en s3 H1) as H. destruct (choice_loop (PE n rule) es en s3) as [|m rl s4|v4 ok4 en4 s4]; cbn [effect] in *; auto.
      + destruct H as [X Y]. split; [exact X|eapply grows_trans; eauto].
      + destruct H as (X & Y & Z & T). split; [exact X|]. split; [eapply grows_trans; eauto|]. split; [lia|].
        intros F. rewrite (T F). exact H4.
  Qed.

  Lemma engine_effect n : (forall rule e en s, ascii_lits e = true -> Inv data s -> effect s (PE n rule e en s)) /\
    (forall rule e vals s, ascii_lits e = true -> Inv data s ->
       effect s (SL n rule e vals s) /\
       (forall v ok en s', SL n rule e vals s = PRes v ok en s' ->
          ok = true /\ exists l, v = VSlice (vals ++ l) /\ (l = [] -> pt s' = pt s))).
  Proof.
    induction n as [|n [IHe IHs]]; [split; intros; cbn; [exact I|split; [exact I|discriminate]]|].
    split.
    - intros rule e en s L I. destruct e as [a e|es|l e|es|e|e|e|e|name|rs want|v cs rs inv|]; cbn [ascii_lits] in L; step_engine.
      + pose proof (IHe rule e en s L I) as H. destruct (PE n rule e en s) as [|m rl s3|v [] en' s3]; auto.
        destruct (run_action a _ en') as [v'|m v'|m]; [exact H|..]; cbn [effect] in *; destruct H as (H1 & H2 & H3 & _).
        * split; [apply addErrAt_inv; [exact H1|apply I]|]. split; [|split; [exact H3|discriminate]].
          eapply grows_trans; [exact H2|]. eexists; reflexivity.
        * auto.
      + apply choice_effect; assumption.
      + pose proof (IHe rule e [] s L I) as H. destruct (PE n rule e [] s) as [|m rl s3|v [] en' s3]; auto.
      + apply seq_effect; auto. apply grows_refl.
      + pose proof (IHe rule e [] (set_invert (negb (fail_invert s)) s) L (set_invert_inv _ _ _ I)) as H.
        destruct (PE n rule e [] _) as [|m rl s3|v ok en' s3]; auto.
        cbn [effect] in H. destruct H as (H1 & H2 & H3 & H4).
        assert (I3 : Inv data (set_invert (negb (fail_invert s3)) s3)) by (apply set_invert_inv; exact H1).
        assert (G3 : grows s (set_invert (negb (fail_invert s3)) s3)) by exact H2.
        assert (P : pt (restore (pt s) (set_invert (negb (fail_invert s3)) s3)) = pt s) by (eapply restore_pt; [apply I3|apply I]).
        cbn [effect]. split; [apply restore_inv; assumption|].
        split; [eapply grows_trans; [exact G3|apply grows_errs, restore_errs]|]. split; [rewrite (left_eq _ _ P); lia|auto].
      + pose proof (IHe rule e [] s L I) as H. destruct (PE n rule e [] s) as [|m rl s3|v ok en' s3]; auto.
        cbn [effect] in *. destruct H as (H1 & H2 & H3 & _). split; [exact H1|]. split; [exact H2|]. split; [exact H3|discriminate].
      + destruct (IHs rule e [] s L I) as [H _]. destruct (SL n rule e [] s) as [|m rl s3|v ok en' s3]; exact H.
      + destruct (IHs rule e [] s L I) as [H X]. destruct (SL n rule e [] s) as [|m rl s3|v ok en' s3]; auto.
        destruct (X v ok en' s3 eq_refl) as [-> [l [-> Hl]]]. cbn [app]. destruct l; [|exact H].
        cbn [effect] in *. destruct H as (H1 & H2 & H3 & _). auto.
      + destruct (grammar name) as [b|] eqn:Gr.
        * pose proof (IHe name b [] s (grammar_lits name b Gr) I) as H. destruct (PE n name b [] s) as [|m rl s3|v ok en' s3]; exact H.
        * cbn [effect]. split; [apply addErrAt_inv; [exact I|apply I]|]. split; [eexists; reflexivity|]. split; [exact (Nat.le_refl _)|auto].
      + apply parse_lit_effect; assumption.
      + apply parse_class_effect; assumption.
      + apply parse_any_effect; assumption.
    - intros rule e vals s L I. rewrite sl_S.
      pose proof (IHe rule e [] s L I) as H. destruct (PE n rule e [] s) as [|m rl s3|v [] en' s3].
      + split; [exact H|discriminate].
      + split; [exact H|discriminate].
      + cbn [effect] in H. destruct H as (H1 & H2 & H3 & _). destruct (IHs rule e (vals ++ [v]) s3 L H1) as [E X]. split.
        * destruct (SL n rule e (vals ++ [v]) s3) as [|m rl s4|v4 ok4 en4 s4]; cbn [effect] in *; auto.
          { destruct E. split; [assumption|eapply grows_trans; eauto]. }
          { destruct (X v4 ok4 en4 s4 eq_refl) as [-> _]. destruct E as (E1 & E2 & E3 & _).
            split; [exact E1|]. split; [eapply grows_trans; eauto|]. split; [lia|discriminate]. }
        * intros v4 ok4 en4 s4 E4. destruct (X v4 ok4 en4 s4 E4) as [-> [l [-> _]]]. split; [reflexivity|].
          exists (v :: l). rewrite <- app_assoc. split; [reflexivity|discriminate].
      + cbn [effect] in H. destruct H as (H1 & H2 & H3 & H4). split.
        * cbn [effect]. split; [exact H1|]. split; [exact H2|]. split; [exact H3|discriminate].
        * intros v4 ok4 en4 s4 E4. inversion E4; subst. split; [reflexivity|]. exists []. rewrite app_nil_r. auto.
  Qed.

  Lemma parse_effect n rule e en s : ascii_lits e = true -> Inv data s -> effect s (PE n rule e en s).
  Proof. apply engine_effect. Qed.
  Lemma star_effect n rule e vals s : ascii_lits e = true -> Inv data s ->
       effect s (SL n rule e vals s) /\
       (forall v ok en s', SL n rule e vals s = PRes v ok en s' ->
          ok = true /\ exists l, v = VSlice (vals ++ l) /\ (l = [] -> pt s' = pt s)).
  Proof. apply engine_effect. Qed.
End Engine.

(** The state after the first read. *)
Lemma init_inv data : Inv data (read None (init_state data)).
Proof.
  unfold read. change (read_pt (pt (init_state data))) with (pts data 0).
  change ((rn (pts data 0) =? RuneError) && (w (pts data 0) =? 1)%nat) with (invalid (pts data 0)).
  destruct (invalid (pts data 0)) eqn:V; constructor; cbn; try (right; reflexivity); try apply Reach_start; try discriminate.
  - constructor; [|constructor]. left. exists (pts data 0). split; [apply Reach_start|reflexivity].
  - intros _. exists 0%nat. split; [split; [reflexivity|intros j H; lia]|]. intros j Hj. replace j with 0%nat by lia. exact V.
  - constructor.
Qed.
