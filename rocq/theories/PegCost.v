(** Cost of recognising: how many expressions are tried and how far the parser
    looks, on lists of characters, without values. *)
From Verif Require Import Text GoAst Ast Utf8 Peg PegPoints Count.
From Coq Require Import NArith Arith Bool Lia.
Open Scope N_scope.

Definition len {X} (l : list X) : N := N.of_nat (List.length l).
Lemma len_nil {X} : len (@nil X) = 0. Proof. reflexivity. Qed.
Lemma len_cons {X} (x : X) l : len (x :: l) = len l + 1. Proof. unfold len. cbn [List.length]. lia. Qed.

(** A literal: what is left after it, and what is left at the first difference. *)
Fixpoint strip (rs l : list N) : option (list N) :=
  match rs with
  | [] => Some l
  | r :: rs => match l with x :: l => if x =? r then strip rs l else None | [] => None end
  end.
Fixpoint common (rs l : list N) : N :=
  match rs with
  | [] => len l
  | r :: rs => match l with x :: l' => if x =? r then common rs l' else len l | [] => 0 end
  end.
Definition hit (cs : list N) (rs : list (N * N)) (inv : bool) (x : N) : bool :=
  xorb (existsb (N.eqb x) cs || existsb (fun '(lo, hi) => (lo <=? x) && (x <=? hi)) rs) inv.

Section Cost.
  Context {A : Type}.
  Variable grammar : text -> option (pexpr A).

  (** [cst e l o c m]: from [l], expression [e] fails ([o] is [None]) or matches up to
      [o]; it takes [c] evaluations of expressions, and the shortest remainder
      looked at has length [m]. *)
  Inductive cst : pexpr A -> list N -> option (list N) -> N -> N -> Prop :=
  | c_action a e l o c m : cst e l o c m -> cst (PAction a e) l o (1 + c) m
  | c_label n e l o c m : cst e l o c m -> cst (PLabel n e) l o (1 + c) m
  | c_choice es l o c m : cch es l o c m -> cst (PChoice es) l o (1 + c) m
  | c_seq es l o c m : csq es l o c m -> cst (PSeq es) l o (1 + c) m
  | c_not e l o c m : cst e l o c m -> cst (PNot e) l (match o with Some _ => None | None => Some l end) (1 + c) m
  | c_opt e l o c m : cst e l o c m -> cst (POpt e) l (Some (match o with Some l' => l' | None => l end)) (1 + c) m
  | c_star e l k l' c m : csr e l k l' c m -> cst (PStar e) l (Some l') (1 + c) m
  | c_plus e l k l' c m : csr e l k l' c m -> cst (PPlus e) l (match k with O => None | S _ => Some l' end) (1 + c) m
  | c_ref n b l o c m : grammar n = Some b -> cst b l o c m -> cst (PRef n) l o (1 + c) m
  | c_lit rs want l : cst (PLit rs want) l (strip rs l) 1 (common rs l)
  | c_class_ok n cs rs inv x l : hit cs rs inv x = true -> cst (PClass n cs rs inv) (x :: l) (Some l) 1 (len l)
  | c_class_no n cs rs inv x l : hit cs rs inv x = false -> cst (PClass n cs rs inv) (x :: l) None 1 (len (x :: l))
  | c_class_end n cs rs inv : cst (PClass n cs rs inv) [] None 1 0
  | c_any x l : cst PAny (x :: l) (Some l) 1 (len l)
  | c_any_end : cst PAny [] None 1 0
  with csq : list (pexpr A) -> list N -> option (list N) -> N -> N -> Prop :=
  | q_nil l : csq [] l (Some l) 0 (len l)
  | q_ok e es l l1 c1 m1 o c2 m2 : cst e l (Some l1) c1 m1 -> csq es l1 o c2 m2 -> csq (e :: es) l o (c1 + c2) (N.min m1 m2)
  | q_no e es l c m : cst e l None c m -> csq (e :: es) l None c m
  with cch : list (pexpr A) -> list N -> option (list N) -> N -> N -> Prop :=
  | h_nil l : cch [] l None 0 (len l)
  | h_ok e es l l1 c m : cst e l (Some l1) c m -> cch (e :: es) l (Some l1) c m
  | h_no e es l c1 m1 o c2 m2 : cst e l None c1 m1 -> cch es l o c2 m2 -> cch (e :: es) l o (c1 + c2) (N.min m1 m2)
  with csr : pexpr A -> list N -> nat -> list N -> N -> N -> Prop :=
  | r_stop e l c m : cst e l None c m -> csr e l 0 l c m
  | r_more e l l1 k l' c1 m1 c2 m2 : cst e l (Some l1) c1 m1 -> csr e l1 k l' c2 m2 -> csr e l (S k) l' (c1 + c2) (N.min m1 m2).
  Scheme cst_i := Induction for cst Sort Prop
    with csq_i := Induction for csq Sort Prop
    with cch_i := Induction for cch Sort Prop
    with csr_i := Induction for csr Sort Prop.
  Combined Scheme cost_ind from cst_i, csq_i, cch_i, csr_i.

  Lemma strip_len rs : forall l, common rs l <= len l /\ (forall l', strip rs l = Some l' -> common rs l = len l' /\ len l = len l' + len rs).
  Proof.
    induction rs as [|r rs IH]; intros l; cbn [strip common].
    - split; [lia|]. intros l' E. inversion E; subst. rewrite len_nil. lia.
    - destruct l as [|x l]; [split; [lia|discriminate]|]. rewrite !len_cons. destruct (x =? r); [|split; [lia|discriminate]].
      destruct (IH l) as [H1 H2]. split; [lia|]. intros l' E. apply H2 in E. lia.
  Qed.

  (** Matching consumes; looking goes at least as far. *)
  Lemma cost_len :
    (forall e l o c m, cst e l o c m -> m <= len l /\ (forall l', o = Some l' -> m <= len l' /\ len l' <= len l)) /\
    (forall es l o c m, csq es l o c m -> m <= len l /\ (forall l', o = Some l' -> m <= len l' /\ len l' <= len l)) /\
    (forall es l o c m, cch es l o c m -> m <= len l /\ (forall l', o = Some l' -> m <= len l' /\ len l' <= len l)) /\
    (forall e l k l' c m, csr e l k l' c m -> m <= len l' /\ len l' <= len l).
  Proof.
    apply (cost_ind (fun e l o c m _ => m <= len l /\ (forall l', o = Some l' -> m <= len l' /\ len l' <= len l))
      (fun es l o c m _ => m <= len l /\ (forall l', o = Some l' -> m <= len l' /\ len l' <= len l))
      (fun es l o c m _ => m <= len l /\ (forall l', o = Some l' -> m <= len l' /\ len l' <= len l))
      (fun e l k l' c m _ => m <= len l' /\ len l' <= len l)); intros; try tauto; rewrite ?len_cons.
    all: repeat match goal with H : _ /\ (forall l', Some _ = Some l' -> _) |- _ => let X := fresh in destruct H as [H X]; specialize (X _ eq_refl) end.
    all: try (split; [lia|]; first [discriminate | intros ? E; inversion E; subst; lia]).
    - destruct H as [H1 H2]. split; [exact H1|]. intros l' E. destruct o; [discriminate|]. inversion E; subst. lia.
    - destruct H as [H1 H2]. split; [exact H1|]. intros l' E. destruct o as [l1|]; inversion E; subst; [apply H2; reflexivity|lia].
    - split; [lia|]. intros l1 E. destruct k; inversion E; subst. lia.
    - destruct (strip_len rs l) as [H1 H2]. split; [exact H1|]. intros l' E. apply H2 in E. lia.
    - destruct H0 as [H3 H4]. split; [lia|]. intros l' E. specialize (H4 l' E). lia.
    - destruct H as [H1 H2], H0 as [H3 H4]. split; [lia|]. intros l' E. specialize (H4 l' E). lia.
    - destruct H. lia.
    - lia.
  Qed.

  Lemma cost_det :
    (forall e l o c m, cst e l o c m -> forall o' c' m', cst e l o' c' m' -> o = o' /\ c = c' /\ m = m') /\
    (forall es l o c m, csq es l o c m -> forall o' c' m', csq es l o' c' m' -> o = o' /\ c = c' /\ m = m') /\
    (forall es l o c m, cch es l o c m -> forall o' c' m', cch es l o' c' m' -> o = o' /\ c = c' /\ m = m') /\
    (forall e l k l' c m, csr e l k l' c m -> forall k' l1 c' m', csr e l k' l1 c' m' -> k = k' /\ l' = l1 /\ c = c' /\ m = m').
  Proof.
    apply (cost_ind (fun e l o c m _ => forall o' c' m', cst e l o' c' m' -> o = o' /\ c = c' /\ m = m')
      (fun es l o c m _ => forall o' c' m', csq es l o' c' m' -> o = o' /\ c = c' /\ m = m')
      (fun es l o c m _ => forall o' c' m', cch es l o' c' m' -> o = o' /\ c = c' /\ m = m')
      (fun e l k l' c m _ => forall k' l1 c' m', csr e l k' l1 c' m' -> k = k' /\ l' = l1 /\ c = c' /\ m = m')); intros;
      match goal with
      | H : cst ?e ?l ?o' ?c' ?m' |- _ = ?o' /\ _ = ?c' /\ _ = ?m' => inversion H; subst; clear H
      | H : csq ?e ?l ?o' ?c' ?m' |- _ = ?o' /\ _ = ?c' /\ _ = ?m' => inversion H; subst; clear H
      | H : cch ?e ?l ?o' ?c' ?m' |- _ = ?o' /\ _ = ?c' /\ _ = ?m' => inversion H; subst; clear H
      | H : csr ?e ?l ?k' ?o' ?c' ?m' |- _ = ?k' /\ _ = ?o' /\ _ = ?c' /\ _ = ?m' => inversion H; subst; clear H
      end;
      repeat match goal with
        | H : ?g ?n = Some ?a, K : ?g ?n = Some ?b |- _ => rewrite H in K; inversion K; subst; clear K
        | H : forall o' c' m', cst ?e ?l o' c' m' -> _, K : cst ?e ?l _ _ _ |- _ => destruct (H _ _ _ K) as (? & ? & ?); clear K; subst
        | H : forall o' c' m', csq ?e ?l o' c' m' -> _, K : csq ?e ?l _ _ _ |- _ => destruct (H _ _ _ K) as (? & ? & ?); clear K; subst
        | H : forall o' c' m', cch ?e ?l o' c' m' -> _, K : cch ?e ?l _ _ _ |- _ => destruct (H _ _ _ K) as (? & ? & ?); clear K; subst
        | H : forall k' l1 c' m', csr ?e ?l k' l1 c' m' -> _, K : csr ?e ?l _ _ _ _ |- _ => destruct (H _ _ _ _ K) as (? & ? & ? & ?); clear K; subst
        | H : Some _ = Some _ |- _ => inversion H; subst; clear H
        end; try congruence; auto.
  Qed.
End Cost.

(** ** The characters of a text, as the parser reads them *)
Fixpoint dec (n : nat) (t : text) : list N :=
  match n with
  | O => []
  | S n => match t with [] => [] | _ => fst (decode_rune t) :: dec n (skipn (snd (decode_rune t)) t) end
  end.
Definition chars (t : text) : list N := dec (List.length t) t.
Lemma dec_enough n : forall m t, (List.length t <= n)%nat -> (List.length t <= m)%nat -> dec n t = dec m t.
Proof.
  induction n as [|n IH]; intros m t Ln Lm.
  - destruct t; [|cbn in Ln; lia]. destruct m; reflexivity.
  - destruct m as [|m]; [destruct t; [reflexivity|cbn in Lm; lia]|]. destruct t as [|c t]; [reflexivity|].
    cbn [dec]. f_equal. destruct (decode_cons c t) as (r & w & E & W). rewrite E. cbn [snd]. apply IH; rewrite skipn_length; cbn [List.length] in *; lia.
Qed.
Lemma chars_step t : t <> [] -> chars t = fst (decode_rune t) :: chars (skipn (snd (decode_rune t)) t).
Proof.
  intros H. destruct t as [|c t]; [congruence|]. unfold chars at 1. cbn [List.length dec]. f_equal.
  destruct (decode_cons c t) as (r & w & E & W). rewrite E. cbn [snd]. apply dec_enough; rewrite ?skipn_length; cbn [List.length] in *; lia.
Qed.
Lemma chars_nil : chars [] = []. Proof. reflexivity. Qed.
Lemma chars_len t : len (chars t) <= len t.
Proof.
  unfold len. enough (H : forall n, (List.length t <= n)%nat -> (List.length (dec n t) <= List.length t)%nat) by (specialize (H _ (Nat.le_refl _)); unfold chars; lia).
  intros n. revert t. induction n as [|n IH]; intros t L; [cbn; lia|]. destruct t as [|c t]; [cbn; lia|]. cbn [dec List.length].
  destruct (decode_cons c t) as (r & w & E & W). rewrite E. cbn [snd]. pose proof (IH (skipn w (c :: t))) as H. rewrite skipn_length in H. cbn [List.length] in *. lia.
Qed.

Definition Rc (s : pstate) : list N := chars (rest (pt s)).
Lemma Rc_eq s s' : pt s' = pt s -> Rc s' = Rc s. Proof. unfold Rc. intros ->. reflexivity. Qed.
Lemma Rc_step data r s : Inv data s -> rest (pt s) <> [] -> Rc s = rn (pt s) :: Rc (read r s).
Proof.
  intros I H. unfold Rc. rewrite (chars_step _ H), read_pt_eq, read_pt_rest, (Reach_decoded _ _ (inv_pt _ _ I)). reflexivity.
Qed.
Lemma Rc_nil s : rest (pt s) = [] -> Rc s = []. Proof. unfold Rc. intros ->. reflexivity. Qed.

Section Link.
  Context {A : Type}.
  Variable run_action : A -> text -> env -> ares.
  Variable grammar : text -> option (pexpr A).
  Variable data : text.
  Hypothesis grammar_lits : forall n b, grammar n = Some b -> ascii_lits b = true.
  Notation PE := (parse_expr run_action grammar).
  Notation SL := (star_loop run_action grammar).
  Notation CST := (cst grammar).

  Lemma lit_chars rule rs : forall s b s1, forallb (fun r => r <? 128) rs = true -> Inv data s -> lit_loop rule rs s = (b, s1) ->
    strip rs (Rc s) = if b then Some (Rc s1) else None.
  Proof.
    induction rs as [|r rs IH]; intros s b s1 L I E; cbn [lit_loop strip] in *; [inversion E; subst; reflexivity|].
    cbn in L. apply andb_true_iff in L. destruct L as [Lr L]. apply N.ltb_lt in Lr.
    destruct (rest (pt s)) as [|ch t] eqn:Rt.
    - rewrite (Rc_nil s Rt). pose proof (Reach_decoded _ _ (inv_pt _ _ I)) as D. rewrite Rt, decode_nil in D. inversion D as [[D1 D2]].
      rewrite <- D1 in E. destruct (N.eqb_spec RuneError r) as [X|X]; [unfold RuneError in X; lia|]. inversion E; subst. reflexivity.
    - rewrite (Rc_step data (Some rule) s I) by (rewrite Rt; discriminate). destruct (rn (pt s) =? r); [|inversion E; subst; reflexivity].
      apply IH in E; auto. apply read_inv; [exact I|]. rewrite Rt. discriminate.
  Qed.

  (** The outcome of a single look. *)
  Definition look (e : pexpr A) (l : list N) : option (list N) :=
    match e, l with
    | PLit rs _, _ => strip rs l
    | PClass _ cs rs inv, x :: l => if hit cs rs inv x then Some l else None
    | PAny, x :: l => Some l
    | _, _ => None
    end.
  Lemma look_cst e l : match e with PLit _ _ | PClass _ _ _ _ | PAny => True | _ => False end -> exists m, CST e l (look e l) 1 m.
  Proof.
    destruct e; try contradiction; intros _; cbn [look].
    - eexists. apply c_lit.
    - destruct l as [|x l]; [eexists; apply c_class_end|]. destruct (hit chars0 ranges inverted x) eqn:H; eexists; [apply c_class_ok|apply c_class_no]; exact H.
    - destruct l as [|x l]; eexists; [apply c_any_end|apply c_any].
  Qed.
  Lemma term_look n rule e en s : match e with PLit _ _ | PClass _ _ _ _ | PAny => True | _ => False end -> ascii_lits e = true -> Inv data s ->
    exists v ok s1, PE (S n) rule e en s = PRes v ok en s1 /\ look e (Rc s) = if ok then Some (Rc s1) else None.
  Proof.
    intros T L I.
    assert (Eof : at_eof (pt s) = true -> Rc s = []) by (intros H; apply Rc_nil; apply (Reach_eof data); [apply I|exact H]).
    assert (Go : forall want, at_eof (pt s) = false -> Rc s = rn (pt s) :: Rc (failAt true (pos (pt s)) want (read (Some rule) s))).
    { intros want H. rewrite (Rc_eq (read (Some rule) s) (failAt true (pos (pt s)) want (read (Some rule) s))) by apply failAt_core. eapply Rc_step; [exact I|eapply not_eof; eauto]. }
    destruct e; try contradiction; rewrite ?pe_lit, ?pe_class, ?pe_any; cbn [look].
    - unfold parse_lit. destruct (lit_loop rule runes s) as [b s1] eqn:E. pose proof (lit_chars rule runes s b s1 L I E) as H. destruct b.
      + eexists _, _, _. split; [reflexivity|]. rewrite H. f_equal. symmetry. apply Rc_eq, failAt_core.
      + eexists _, _, _. split; [reflexivity|]. exact H.
    - unfold parse_class. cbv zeta. destruct (at_eof (pt s)) eqn:E; [rewrite Eof by reflexivity; eexists _, _, _; split; reflexivity|].
      rewrite (Go name eq_refl). unfold hit. destruct (xorb _ _); eexists _, _, _; split; reflexivity.
    - unfold parse_any. cbv zeta. destruct (at_eof (pt s)) eqn:E; [rewrite Eof by reflexivity; eexists _, _, _; split; reflexivity|].
      rewrite (Go (str ".") eq_refl). eexists _, _, _; split; reflexivity.
  Qed.

  Definition same (r : pres) (o : option (list N)) : Prop := match r with PRes _ ok _ s1 => o = if ok then Some (Rc s1) else None | _ => True end.

  (** Every finished run of the engine has a cost. *)
  Definition costs (P : option (list N) -> N -> N -> Prop) (r : pres) : Prop :=
    match r with
    | OutOfFuel => True
    | PPanic _ _ _ => exists a t en m, run_action a t en = APanic m
    | PRes _ ok _ s1 => exists c m, P (if ok then Some (Rc s1) else None) c m
    end.
  (** References are defined. *)
  Fixpoint closed (e : pexpr A) : bool :=
    match e with
    | PAction _ e | PLabel _ e | PNot e | POpt e | PStar e | PPlus e => closed e
    | PChoice es | PSeq es => forallb closed es
    | PRef n => match grammar n with Some _ => true | None => false end
    | _ => true
    end.
  Hypothesis grammar_closed : forall n b, grammar n = Some b -> closed b = true.

  Lemma engine_cost n :
    (forall rule e en s, ascii_lits e = true -> closed e = true -> Inv data s -> costs (CST e (Rc s)) (PE n rule e en s)) /\
    (forall rule e vals s, ascii_lits e = true -> closed e = true -> Inv data s ->
       match SL n rule e vals s with
       | PRes v ok _ s1 => ok = true /\ exists l c m, v = VSlice (vals ++ l) /\ csr grammar e (Rc s) (List.length l) (Rc s1) c m
       | r => costs (fun _ _ _ => True) r
       end).
  Proof.
    induction n as [|n [IHe IHs]]; [split; intros; exact I|].
    assert (EffP : forall rule e en s, ascii_lits e = true -> Inv data s -> effect data s (PE n rule e en s)) by (intros; apply parse_effect; auto).
    split.
    - intros rule e en s L C I.
      destruct e as [a e|es|l e|es|e|e|e|e|name|rs want|v cs rs inv|]; cbn [ascii_lits closed] in L, C;
        try (match goal with |- costs (CST ?e _) _ => destruct (term_look n rule e en s Logic.I L I) as (v' & ok & s1 & E & Lk); destruct (look_cst e (Rc s) Logic.I) as [m Ct] end;
             rewrite E; cbn [costs]; rewrite <- Lk; eauto); step_engine.
      + pose proof (IHe rule e en s L C I) as H. destruct (PE n rule e en s) as [|m rl s3|v [] en' s3]; auto; cbn [costs] in *.
        * destruct H as (c & m & H). destruct (run_action a (sliceFrom (pt s) s3) en') as [v'|msg v'|msg] eqn:Ra; cbn [costs]; [eexists _, _; apply c_action; exact H|eexists _, _; apply c_action; exact H|eauto].
        * destruct H as (c & m & H). eexists _, _; apply c_action; exact H.
      + enough (H : costs (cch grammar es (Rc s)) (choice_loop (PE n rule) es en s)).
        { destruct (choice_loop (PE n rule) es en s); auto. cbn [costs] in *. destruct H as (c & m & H). eexists _, _. apply c_choice. exact H. }
        revert en s I. induction es as [|e es IHes]; intros en s I; cbn [choice_loop]; [eexists _, _; apply h_nil|].
        cbn in L, C. apply andb_true_iff in L, C. destruct L as [Le L], C as [Ce C].
        pose proof (IHe rule e [] s Le Ce I) as H. pose proof (EffP rule e [] s Le I) as Ef. destruct (PE n rule e [] s) as [|m rl s3|v [] en' s3]; auto; cbn [costs effect] in *.
        * destruct H as (c & m & H). eexists _, _. apply h_ok. exact H.
        * destruct H as (c & m & H), Ef as (I3 & _ & _ & P). specialize (IHes L C en s3 I3). rewrite (Rc_eq s s3 (P eq_refl)) in IHes.
          destruct (choice_loop (PE n rule) es en s3); auto. cbn [costs] in *. destruct IHes as (c2 & m2 & K). eexists _, _. eapply h_no; eauto.
      + pose proof (IHe rule e [] s L C I) as H. destruct (PE n rule e [] s) as [|m rl s3|v [] en' s3]; auto; cbn [costs] in *; destruct H as (c & m & H); eexists _, _; apply c_label; exact H.
      + enough (H : forall sp vals, costs (csq grammar es (Rc s)) (seq_loop (PE n rule) sp es vals en s)).
        { specialize (H (pt s) []). destruct (seq_loop (PE n rule) (pt s) es [] en s); auto. cbn [costs] in *. destruct H as (c & m & H). eexists _, _. apply c_seq. exact H. }
        revert en s I. induction es as [|e es IHes]; intros en s I sp vals; cbn [seq_loop]; [eexists _, _; apply q_nil|].
        cbn in L, C. apply andb_true_iff in L, C. destruct L as [Le L], C as [Ce C].
        pose proof (IHe rule e en s Le Ce I) as H. pose proof (EffP rule e en s Le I) as Ef. destruct (PE n rule e en s) as [|m rl s3|v [] en' s3]; auto; cbn [costs effect] in *.
        * destruct H as (c & m & H), Ef as (I3 & _). specialize (IHes L C en' s3 I3 sp (vals ++ [v])).
          destruct (seq_loop (PE n rule) sp es (vals ++ [v]) en' s3); auto. cbn [costs] in *. destruct IHes as (c2 & m2 & K). eexists _, _. eapply q_ok; eauto.
        * destruct H as (c & m & H). eexists _, _. apply q_no. exact H.
      + pose proof (IHe rule e [] (set_invert (negb (fail_invert s)) s) L C (set_invert_inv _ _ _ I)) as H.
        pose proof (EffP rule e [] (set_invert (negb (fail_invert s)) s) L (set_invert_inv _ _ _ I)) as Ef.
        destruct (PE n rule e [] _) as [|m rl s3|v ok en' s3]; auto. cbn [costs effect] in *. destruct H as (c & m & H), Ef as (I3 & _).
        eexists _, _. apply c_not in H. destruct ok; cbn [negb]; [exact H|].
        assert (P : pt (restore (pt s) (set_invert (negb (fail_invert s3)) s3)) = pt s) by (eapply restore_pt; [apply I3|apply I]).
        rewrite (Rc_eq s _ P). exact H.
      + pose proof (IHe rule e [] s L C I) as H. pose proof (EffP rule e [] s L I) as Ef. destruct (PE n rule e [] s) as [|m rl s3|v ok en' s3]; auto. cbn [costs effect] in *.
        destruct H as (c & m & H), Ef as (_ & _ & _ & P). eexists _, _. apply c_opt in H. destruct ok; [exact H|]. rewrite (Rc_eq s s3 (P eq_refl)). exact H.
      + pose proof (IHs rule e [] s L C I) as H. destruct (SL n rule e [] s) as [|m rl s3|v ok en' s3]; auto. cbn [costs].
        destruct H as (-> & l & c & m & _ & H). eexists _, _. eapply c_star. exact H.
      + pose proof (IHs rule e [] s L C I) as H. destruct (SL n rule e [] s) as [|m rl s3|v ok en' s3]; auto.
        destruct H as (-> & l & c & m & -> & H). apply c_plus in H. cbn [app]. destruct l; cbn [List.length] in H; cbn [costs]; eauto.
      + destruct (grammar name) as [b|] eqn:Gr; [|discriminate].
        pose proof (IHe name b [] s (grammar_lits name b Gr) (grammar_closed name b Gr) I) as H. destruct (PE n name b [] s) as [|m rl s3|v ok en' s3]; auto; cbn [costs] in *.
        destruct H as (c & m & H). eexists _, _. eapply c_ref; eauto.
    - intros rule e vals s L C I. rewrite sl_S. pose proof (IHe rule e [] s L C I) as H. pose proof (EffP rule e [] s L I) as Ef.
      destruct (PE n rule e [] s) as [|m rl s3|v [] en' s3]; auto; cbn [costs effect] in *.
      + destruct H as (c & m & H), Ef as (I3 & _). specialize (IHs rule e (vals ++ [v]) s3 L C I3). destruct (SL n rule e (vals ++ [v]) s3) as [|m4 rl4 s4|v4 ok4 en4 s4]; auto.
        destruct IHs as (-> & l & c2 & m2 & -> & K). split; [reflexivity|]. exists (v :: l). eexists _, _. rewrite <- app_assoc. split; [reflexivity|]. cbn [List.length]. eapply r_more; eauto.
      + destruct H as (c & m & H), Ef as (_ & _ & _ & P). split; [reflexivity|]. exists []. eexists _, _. rewrite app_nil_r. split; [reflexivity|]. cbn [List.length].
        rewrite (Rc_eq s s3 (P eq_refl)). apply r_stop. exact H.
  Qed.

  (** ** The counter *)
  Variable limit : N.
  Notation CP := (cparse_expr run_action grammar limit).
  Notation CS := (cstar_loop run_action grammar limit).
  Definition counts (k c : N) (o : option (list N)) (r : pres) (rk : pres * N) : Prop :=
    fst rk = r /\
    match r with
    | OutOfFuel => True
    | PPanic _ _ _ => snd rk <= k + c
    | PRes _ ok _ s1 => snd rk = k + c /\ o = if ok then Some (Rc s1) else None
    end.
  Lemma cp_S n rule e en s k : k + 1 <= limit -> CP (S n) rule e en s k =
        match e with
        | PAction a e' =>
            match CP n rule e' en s (k + 1) with
            | (PRes v true en' s', k) =>
                match run_action a (sliceFrom (pt s) s') en' with
                | AOk v' => (PRes v' true en' s', k)
                | AErr msg v' => (PRes v' true en' (addErrAt msg (pos (pt s)) (Some rule) [] s'), k)
                | APanic msg => (PPanic msg rule s', k)
                end
            | r => r
            end
        | PChoice es => cchoice_loop (CP n rule) es en s (k + 1)
        | PLabel l e' =>
            match CP n rule e' [] s (k + 1) with
            | (PRes v true _ s', k) => (PRes v true ((l, v) :: en) s', k)
            | (PRes v false _ s', k) => (PRes v false en s', k)
            | r => r
            end
        | PSeq es => cseq_loop (CP n rule) (pt s) es [] en s (k + 1)
        | PNot e' =>
            match CP n rule e' [] (set_invert (negb (fail_invert s)) s) (k + 1) with
            | (PRes _ ok _ s', k) =>
                (PRes VNil (negb ok) en (restore (pt s) (set_invert (negb (fail_invert s')) s')), k)
            | r => r
            end
        | POpt e' => match CP n rule e' [] s (k + 1) with (PRes v _ _ s', k) => (PRes v true en s', k) | r => r end
        | PStar e' => match CS n rule e' [] s (k + 1) with (PRes v ok _ s', k) => (PRes v ok en s', k) | r => r end
        | PPlus e' =>
            match CS n rule e' [] s (k + 1) with
            | (PRes (VSlice []) _ _ s', k) => (PRes VNil false en s', k)
            | (PRes v ok _ s', k) => (PRes v ok en s', k)
            | r => r
            end
        | PRef name =>
            match grammar name with
            | None => (PRes VNil false en (addErrAt (str "undefined rule: " ++ name) (pos (pt s)) (Some rule) [] s), k + 1)
            | Some body => match CP n name body [] s (k + 1) with (PRes v ok _ s', k) => (PRes v ok en s', k) | r => r end
            end
        | PLit v want => let '(x, ok, s') := parse_lit rule v want s in (PRes x ok en s', k + 1)
        | PClass v cs rs inv => let '(x, ok, s') := parse_class rule v cs rs inv s in (PRes x ok en s', k + 1)
        | PAny => let '(x, ok, s') := parse_any rule s in (PRes x ok en s', k + 1)
        end.
  Proof. intros H. cbn [cparse_expr]. destruct (N.ltb_spec limit (k + 1)); [lia|]. reflexivity. Qed.
  Lemma cs_S n rule e vals s k : CS (S n) rule e vals s k =
        match CP n rule e [] s k with
        | (PRes v true _ s', k) => CS n rule e (vals ++ [v]) s' k
        | (PRes _ false _ s', k) => (PRes (VSlice vals) true [] s', k)
        | r => r
        end.
  Proof. reflexivity. Qed.

  Lemma counter n :
    (forall rule e en s k o c m, ascii_lits e = true -> Inv data s -> CST e (Rc s) o c m -> k + c <= limit ->
       counts k c o (PE n rule e en s) (CP n rule e en s k)) /\
    (forall rule e vals s k j l' c m, ascii_lits e = true -> Inv data s -> csr grammar e (Rc s) j l' c m -> k + c <= limit ->
       counts k c (Some l') (SL n rule e vals s) (CS n rule e vals s k) /\
       (forall v ok en s1, SL n rule e vals s = PRes v ok en s1 -> ok = true /\ exists l, v = VSlice (vals ++ l) /\ List.length l = j)).
  Proof.
    induction n as [|n [IHe IHs]]; [split; intros; split; try split; try exact I; try reflexivity; intros; discriminate|].
    assert (EffP : forall rule e en s, ascii_lits e = true -> Inv data s -> effect data s (PE n rule e en s)) by (intros; apply parse_effect; auto).
    split.
    - intros rule e en s k o c m L I H B.
      assert (C1 : 1 <= c) by (inversion H; lia). rewrite cp_S by lia.
      destruct e as [a e|es|l e|es|e|e|e|e|name|rs want|v cs rs inv|]; cbn [ascii_lits] in L.
      10-12: match type of H with CST ?e _ _ _ _ => destruct (term_look n rule e en s Logic.I L I) as (v' & ok & s1 & E & Lk); destruct (look_cst e (Rc s) Logic.I) as [mm Ct] end;
        rewrite E; destruct (proj1 (cost_det grammar) _ _ _ _ _ H _ _ _ Ct) as (-> & -> & _); rewrite Lk; revert E; step_engine.
      10: destruct (parse_lit rule rs want s) as [[x1 x2] x3]; intros E; inversion E; subst; split; [reflexivity|split; reflexivity].
      10: destruct (parse_class rule v cs rs inv s) as [[x1 x2] x3]; intros E; inversion E; subst; split; [reflexivity|split; reflexivity].
      10: destruct (parse_any rule s) as [[x1 x2] x3]; intros E; inversion E; subst; split; [reflexivity|split; reflexivity].
      all: inversion H; subst; clear H; step_engine.
      + match goal with K : CST e _ _ _ _ |- _ => pose proof (IHe rule e en s (k + 1) _ _ _ L I K ltac:(lia)) as X end. destruct X as [X1 X2].
        destruct (CP n rule e en s (k + 1)) as [r k1]. cbn [fst snd] in *. subst r. destruct (PE n rule e en s) as [|m1 rl s3|v [] en' s3]; try (split; [reflexivity|]; cbn [fst snd]; auto; lia).
        * destruct X2 as [-> ->]. destruct (run_action a (sliceFrom (pt s) s3) en'); (split; [reflexivity|]); cbn [fst snd]; try lia; (split; [lia|reflexivity]).
        * split; [reflexivity|]. cbn [fst snd]. split; [lia|tauto].
      + match goal with K : cch _ es _ _ _ _ |- _ => rename K into K0 end.
        enough (X : forall k, k + c0 <= limit -> counts k c0 o (choice_loop (PE n rule) es en s) (cchoice_loop (CP n rule) es en s k)).
        { specialize (X (k + 1) ltac:(lia)). destruct X as [X1 X2]. split; [exact X1|]. destruct (choice_loop (PE n rule) es en s); auto; [lia|]. split; [lia|tauto]. }
        clear B C1 k. revert o c0 m en s I K0. induction es as [|e es IHes]; intros o c0 m en s I K0 k B; inversion K0; subst; clear K0; cbn [choice_loop cchoice_loop].
        * split; [reflexivity|]. cbn [fst snd]. split; [lia|reflexivity].
        * cbn in L. apply andb_true_iff in L. destruct L as [Le L].
          match goal with K : CST e _ _ _ _ |- _ => pose proof (IHe rule e [] s k _ _ _ Le I K ltac:(lia)) as X end. destruct X as [X1 X2].
          destruct (CP n rule e [] s k) as [r k1]. cbn [fst snd] in *. subst r. destruct (PE n rule e [] s) as [|m1 rl s3|v [] en' s3]; try (split; [reflexivity|]; cbn [fst snd]; auto; lia).
          destruct X2 as [_ X2]. discriminate.
        * cbn in L. apply andb_true_iff in L. destruct L as [Le L].
          match goal with K : CST e _ _ _ _ |- _ => pose proof (IHe rule e [] s k _ _ _ Le I K ltac:(lia)) as X end. destruct X as [X1 X2].
          pose proof (EffP rule e [] s Le I) as Ef.
          destruct (CP n rule e [] s k) as [r k1]. cbn [fst snd] in *. subst r. destruct (PE n rule e [] s) as [|m3 rl s3|v [] en' s3]; try (split; [reflexivity|]; cbn [fst snd]; auto; lia).
          -- destruct X2 as [_ X2]. discriminate.
          -- destruct X2 as [-> _], Ef as (I3 & _ & _ & P). specialize (P eq_refl). match goal with K : cch _ es _ _ _ _ |- _ => rewrite <- (Rc_eq s s3 P) in K; pose proof (IHes L _ _ _ en s3 I3 K (k + c1) ltac:(lia)) as X end.
             destruct X as [X1 X2]. split; [exact X1|]. destruct (choice_loop (PE n rule) es en s3); auto; [lia|]. split; [lia|tauto].
      + match goal with K : CST e _ _ _ _ |- _ => pose proof (IHe rule e [] s (k + 1) _ _ _ L I K ltac:(lia)) as X end. destruct X as [X1 X2].
        destruct (CP n rule e [] s (k + 1)) as [r k1]. cbn [fst snd] in *. subst r. destruct (PE n rule e [] s) as [|m1 rl s3|v [] en' s3]; split; try reflexivity; cbn [fst snd]; auto; try lia; (split; [lia|tauto]).
      + match goal with K : csq _ es _ _ _ _ |- _ => rename K into K0 end.
        enough (X : forall sp vals k, k + c0 <= limit -> counts k c0 o (seq_loop (PE n rule) sp es vals en s) (cseq_loop (CP n rule) sp es vals en s k)).
        { specialize (X (pt s) [] (k + 1) ltac:(lia)). destruct X as [X1 X2]. split; [exact X1|]. destruct (seq_loop (PE n rule) (pt s) es [] en s); auto; [lia|]. split; [lia|tauto]. }
        clear B C1 k. revert o c0 m en s I K0. induction es as [|e es IHes]; intros o c0 m en s I K0 sp vals k B; inversion K0; subst; clear K0; cbn [seq_loop cseq_loop].
        * split; [reflexivity|]. cbn [fst snd]. split; [lia|reflexivity].
        * cbn in L. apply andb_true_iff in L. destruct L as [Le L].
          match goal with K : CST e _ _ _ _ |- _ => pose proof (IHe rule e en s k _ _ _ Le I K ltac:(lia)) as X end. destruct X as [X1 X2].
          pose proof (EffP rule e en s Le I) as Ef.
          destruct (CP n rule e en s k) as [r k1]. cbn [fst snd] in *. subst r. destruct (PE n rule e en s) as [|m3 rl s3|v [] en' s3]; try (split; [reflexivity|]; cbn [fst snd]; auto; lia).
          -- destruct X2 as [-> X2], Ef as (I3 & _). inversion X2; subst. match goal with K : csq _ es _ _ _ _ |- _ => pose proof (IHes L _ _ _ en' s3 I3 K sp (vals ++ [v]) (k + c1) ltac:(lia)) as X end.
             destruct X as [X1 X3]. split; [exact X1|]. destruct (seq_loop (PE n rule) sp es (vals ++ [v]) en' s3); auto; [lia|]. split; [lia|tauto].
          -- destruct X2 as [_ X2]. discriminate.
        * cbn in L. apply andb_true_iff in L. destruct L as [Le L].
          match goal with K : CST e _ _ _ _ |- _ => pose proof (IHe rule e en s k _ _ _ Le I K ltac:(lia)) as X end. destruct X as [X1 X2].
          destruct (CP n rule e en s k) as [r k1]. cbn [fst snd] in *. subst r. destruct (PE n rule e en s) as [|m3 rl s3|v [] en' s3]; try (split; [reflexivity|]; cbn [fst snd]; auto; lia).
          destruct X2 as [_ X2]. discriminate.
      + match goal with K : CST e _ _ _ _ |- _ => pose proof (IHe rule e [] (set_invert (negb (fail_invert s)) s) (k + 1) _ _ _ L (set_invert_inv _ _ _ I) K ltac:(lia)) as X end. destruct X as [X1 X2].
        pose proof (EffP rule e [] (set_invert (negb (fail_invert s)) s) L (set_invert_inv _ _ _ I)) as Ef.
        destruct (CP n rule e [] (set_invert (negb (fail_invert s)) s) (k + 1)) as [r k1]. cbn [fst snd] in *. subst r.
        destruct (PE n rule e [] (set_invert (negb (fail_invert s)) s)) as [|m1 rl s3|v ok en' s3]; split; try reflexivity; cbn [fst snd]; auto; try lia.
        destruct X2 as [X2 X3], Ef as (I3 & _). split; [lia|]. rewrite X3. destruct ok; cbn [negb]; [reflexivity|]. f_equal.
        assert (P : pt (restore (pt s) (set_invert (negb (fail_invert s3)) s3)) = pt s) by (eapply restore_pt; [apply I3|apply I]). symmetry. apply Rc_eq. exact P.
      + match goal with K : CST e _ _ _ _ |- _ => pose proof (IHe rule e [] s (k + 1) _ _ _ L I K ltac:(lia)) as X end. destruct X as [X1 X2].
        pose proof (EffP rule e [] s L I) as Ef.
        destruct (CP n rule e [] s (k + 1)) as [r k1]. cbn [fst snd] in *. subst r. destruct (PE n rule e [] s) as [|m1 rl s3|v ok en' s3]; split; try reflexivity; cbn [fst snd]; auto; try lia.
        destruct X2 as [X2 X3], Ef as (_ & _ & _ & P). split; [lia|]. rewrite X3. destruct ok; [reflexivity|]. f_equal. symmetry. apply Rc_eq, P. reflexivity.
      + match goal with K : csr _ e _ _ _ _ _ |- _ => destruct (IHs rule e [] s (k + 1) _ _ _ _ L I K ltac:(lia)) as [[X1 X2] X3] end.
        destruct (CS n rule e [] s (k + 1)) as [r k1]. cbn [fst snd] in *. subst r. destruct (SL n rule e [] s) as [|m1 rl s3|v ok en' s3]; split; try reflexivity; cbn [fst snd]; auto; try lia.
        split; [lia|tauto].
      + match goal with K : csr _ e _ _ _ _ _ |- _ => destruct (IHs rule e [] s (k + 1) _ _ _ _ L I K ltac:(lia)) as [[X1 X2] X3] end.
        destruct (CS n rule e [] s (k + 1)) as [r k1]. cbn [fst snd] in *. subst r. destruct (SL n rule e [] s) as [|m1 rl s3|v ok en' s3]; try (split; [reflexivity|]; cbn [fst snd]; auto; lia).
        destruct (X3 v ok en' s3 eq_refl) as (-> & lv & -> & Ll). destruct X2 as [X2 X4]. cbn [app]. destruct lv; cbn [List.length] in Ll; subst; (split; [reflexivity|]); cbn [fst snd]; (split; [lia|]); [reflexivity|exact X4].
      + match goal with K : grammar name = Some b, K1 : CST b _ _ _ _ |- _ => rewrite K; pose proof (IHe name b [] s (k + 1) _ _ _ (grammar_lits name b K) I K1 ltac:(lia)) as X end. destruct X as [X1 X2].
        destruct (CP n name b [] s (k + 1)) as [r k1]. cbn [fst snd] in *. subst r. destruct (PE n name b [] s) as [|m1 rl s3|v ok en' s3]; split; try reflexivity; cbn [fst snd]; auto; try lia. split; [lia|tauto].
    - intros rule e vals s k j l' c m L I H B. rewrite sl_S, cs_S. pose proof (EffP rule e [] s L I) as Ef. inversion H; subst; clear H;
        match goal with K : CST e _ _ _ _ |- _ => pose proof (IHe rule e [] s k _ _ _ L I K ltac:(lia)) as X end; destruct X as [X1 X2];
        destruct (CP n rule e [] s k) as [r k1]; cbn [fst snd] in *; subst r; destruct (PE n rule e [] s) as [|m3 rl s3|v [] en' s3];
        try (split; [split; [reflexivity|]; cbn [fst snd]; auto; lia|intros; discriminate]);
        try (destruct X2 as [_ X2]; discriminate).
      + destruct X2 as [-> _], Ef as (I3 & _ & _ & P). split; [split; [reflexivity|]; cbn [fst snd]; split; [reflexivity|]; f_equal; symmetry; apply Rc_eq; apply P; reflexivity|].
        intros v4 ok4 en4 s4 E. inversion E; subst. split; [reflexivity|]. exists []. rewrite app_nil_r. auto.
      + destruct X2 as [-> X2], Ef as (I3 & _). inversion X2; subst.
        match goal with K : csr _ e _ _ _ _ _ |- _ => destruct (IHs rule e (vals ++ [v]) s3 (k + c1) _ _ _ _ L I3 K ltac:(lia)) as [[X4 X5] X6] end.
        split.
        * split; [exact X4|]. destruct (SL n rule e (vals ++ [v]) s3); auto; [lia|]. split; [lia|tauto].
        * intros v4 ok4 en4 s4 E. destruct (X6 v4 ok4 en4 s4 E) as (-> & lv & -> & <-). split; [reflexivity|]. exists (v :: lv). rewrite <- app_assoc. auto.
  Qed.
End Link.
