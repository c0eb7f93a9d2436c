(** Facts about the semantics of grammar expressions (SpecPeg.v). *)
From Verif Require Import Text GoAst Ast Utf8 Peg PegPoints.
From Verif Require Export SpecPeg.
From Coq Require Import NArith Arith Bool Lia.
Open Scope N_scope.

Lemma consumed_app k r : consumed (k ++ r) r = k.
Proof.
  unfold consumed. rewrite app_length. replace (_ + _ - _)%nat with (List.length k) by lia.
  rewrite firstn_app, Nat.sub_diag, firstn_all. cbn. apply app_nil_r.
Qed.


Scheme sem_ind2 := Induction for sem Sort Prop
  with alts_ind2 := Induction for sem_alts Sort Prop
  with seq_ind2 := Induction for sem_seq Sort Prop
  with rep_ind2 := Induction for sem_rep Sort Prop.
Combined Scheme sem_mutind from sem_ind2, alts_ind2, seq_ind2, rep_ind2.

Section Sem.
  Context {A : Type}.
  Variable run_action : A -> text -> env -> ares.
  Variable grammar : text -> option (pexpr A).
  Local Notation sem := (SpecPeg.sem run_action grammar).
  Local Notation sem_alts := (SpecPeg.sem_alts run_action grammar).
  Local Notation sem_seq := (SpecPeg.sem_seq run_action grammar).
  Local Notation sem_rep := (SpecPeg.sem_rep run_action grammar).


  (** * Facts about the semantics alone *)
  Lemma lit_match_suffix rs : forall t r, lit_match rs t = Some r -> exists k, t = k ++ r.
  Proof.
    induction rs as [|x rs IH]; intros t r H; cbn in H; [inversion H; exists []; reflexivity|].
    destruct t as [|c t]; [discriminate|]. destruct (_ =? _); [|discriminate].
    destruct (IH _ _ H) as [k ->]. exists (c :: k). reflexivity.
  Qed.
  Lemma after_rune_suffix t : first_bytes t ++ after_rune t = t.
  Proof. apply firstn_skipn. Qed.

  Definition suffix_out (t : text) (o : out) : Prop :=
    match o with Good _ _ r => exists k, t = k ++ r | Fail => True end.
  Lemma sem_suffix : (forall e en t o, sem e en t o -> suffix_out t o) /\
    (forall es en t o, sem_alts es en t o -> suffix_out t o) /\
    (forall es vals en t o, sem_seq es vals en t o -> suffix_out t o) /\
    (forall e t vs r, sem_rep e t vs r -> exists k, t = k ++ r).
  Proof.
    apply sem_mutind; cbn; intros; auto; try (exists []; reflexivity).
    - eapply lit_match_suffix; eauto.
    - eexists; symmetry; apply after_rune_suffix.
    - eexists; symmetry; apply after_rune_suffix.
    - destruct H as [k ->], o; cbn in *; [exact I|]. destruct H0 as [k' ->]. exists (k ++ k'). rewrite app_assoc. reflexivity.
    - destruct H as [k ->], H0 as [k' ->]. exists (k ++ k'). rewrite app_assoc. reflexivity.
  Qed.

  (** The result is determined. *)
  Lemma sem_fun : (forall e en t o, sem e en t o -> forall o', sem e en t o' -> o = o') /\
    (forall es en t o, sem_alts es en t o -> forall o', sem_alts es en t o' -> o = o') /\
    (forall es vals en t o, sem_seq es vals en t o -> forall o', sem_seq es vals en t o' -> o = o') /\
    (forall e t vs r, sem_rep e t vs r -> forall vs' r', sem_rep e t vs' r' -> vs = vs' /\ r = r').
  Proof.
    apply sem_mutind; intros;
      match goal with
      | H : sem _ _ _ ?o |- _ = ?o => inversion H; subst
      | H : sem_alts _ _ _ ?o |- _ = ?o => inversion H; subst
      | H : sem_seq _ _ _ _ ?o |- _ = ?o => inversion H; subst
      | H : sem_rep _ _ ?v ?r |- _ = ?v /\ _ = ?r => inversion H; subst
      end;
      try match goal with E : grammar ?n = Some ?a, E' : grammar ?n = Some ?b |- _ =>
        rewrite E in E'; inversion E'; subst end;
      repeat match goal with
      | IH : forall o', sem ?e ?en ?t o' -> _ = o', H : sem ?e ?en ?t _ |- _ => apply IH in H
      | IH : forall o', sem_alts ?e ?en ?t o' -> _ = o', H : sem_alts ?e ?en ?t _ |- _ => apply IH in H
      | IH : forall o', sem_seq ?e ?vs ?en ?t o' -> _ = o', H : sem_seq ?e ?vs ?en ?t _ |- _ => apply IH in H
      | IH : forall vs' r', sem_rep ?e ?t vs' r' -> _, H : sem_rep ?e ?t _ _ |- _ => apply IH in H; destruct H
      end; subst; try discriminate; try congruence; auto.
    all: try match goal with H : Good _ _ _ = Good _ _ _ |- _ => inversion H; subst; clear H end; try congruence; auto.
    all: try match goal with H : _ = [] \/ _ |- _ => destruct H; congruence end.
    all: try match goal with
      | IH : forall o', sem_seq ?e ?vs ?en ?t o' -> _ = o', H : sem_seq ?e ?vs ?en ?t _ |- _ => apply IH in H
      | IH : forall vs' r', sem_rep ?e ?t vs' r' -> _, H : sem_rep ?e ?t _ _ |- _ => apply IH in H; destruct H
      end; subst; auto; try congruence.
    all: try (split; congruence).
  Qed.
End Sem.
