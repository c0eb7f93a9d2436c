(** Two's complement: bit-vector operations on residues mirror wrap-around
    arithmetic on signed numbers. *)
From Verif Require Import Text GoAst Ast SpecSmt.
From Coq Require Import ZArith Lia Bool.
Open Scope Z_scope.

Definition M (w : width) : Z := 2 ^ bits w.
Definition H (w : width) : Z := 2 ^ (bits w - 1).

Lemma H_pos w : 0 < H w. Proof. destruct w; reflexivity. Qed.
Lemma M_H w : M w = 2 * H w. Proof. destruct w; reflexivity. Qed.
Lemma bits_pos w : 0 < bits w. Proof. destruct w; reflexivity. Qed.
Lemma M_pos w : 0 < M w. Proof. rewrite M_H. pose proof (H_pos w). lia. Qed.

Lemma wrap_range w z : - H w <= wrap_int w z < H w.
Proof.
  unfold wrap_int. fold (H w) (M w).
  pose proof (Z.mod_pos_bound (z + H w) (M w) (M_pos w)). rewrite M_H in *. lia.
Qed.
Lemma wrap_mod w z : wrap_int w z mod M w = z mod M w.
Proof.
  unfold wrap_int. fold (H w) (M w).
  rewrite Zminus_mod_idemp_l. f_equal. lia.
Qed.

(** Residues determine numbers in range. *)
Lemma residue_inj w a b : - H w <= a < H w -> - H w <= b < H w -> a mod M w = b mod M w -> a = b.
Proof.
  intros Ha Hb E.
  assert (D : (a - b) mod M w = 0) by (rewrite Zminus_mod, E, Z.sub_diag; apply Z.mod_0_l; pose proof (M_pos w); lia).
  apply Z.mod_divide in D; [|pose proof (M_pos w); lia]. destruct D as [k Hk]. rewrite M_H in Hk. pose proof (H_pos w). assert (k = 0 \/ k >= 1 \/ k <= -1) as [->|[Hk1|Hk1]] by lia; nia.
Qed.

Definition signed (w : width) (z : Z) : Z := if z <? H w then z else z - M w.
Lemma signed_range w z : 0 <= z < M w -> - H w <= signed w z < H w.
Proof. unfold signed. rewrite M_H. destruct (Z.ltb_spec z (H w)); lia. Qed.
Lemma signed_mod w z : 0 <= z < M w -> signed w z mod M w = z.
Proof.
  intros Hz. unfold signed. destruct (Z.ltb_spec z (H w)).
  - apply Z.mod_small. exact Hz.
  - replace (z - M w) with (z + (-1) * M w) by lia. rewrite Z_mod_plus_full. apply Z.mod_small. exact Hz.
Qed.

Lemma add_res w a b : (a mod M w + b mod M w) mod M w = wrap_int w (a + b) mod M w.
Proof. rewrite wrap_mod, <- Zplus_mod. reflexivity. Qed.
Lemma sub_res w a b : (a mod M w + (M w - b mod M w)) mod M w = wrap_int w (a - b) mod M w.
Proof.
  rewrite wrap_mod. replace (a mod M w + (M w - b mod M w)) with ((a mod M w - b mod M w) + 1 * M w) by lia.
  rewrite Z_mod_plus_full, <- Zminus_mod. reflexivity.
Qed.
Lemma neg_res w a : (M w - a mod M w) mod M w = wrap_int w (- a) mod M w.
Proof.
  rewrite wrap_mod. replace (M w - a mod M w) with ((0 - a mod M w) + 1 * M w) by lia.
  rewrite Z_mod_plus_full, Zminus_mod_idemp_r. reflexivity.
Qed.
Lemma com_res w a : M w - 1 - a mod M w = Z.lnot a mod M w.
Proof.
  unfold Z.lnot. pose proof (M_pos w). pose proof (Z.mod_pos_bound a (M w) H0).
  pose proof (Z.div_mod a (M w)).
  apply (Z.mod_unique_pos (Z.pred (- a)) (M w) (- (a / M w) - 1)); lia.
Qed.

Lemma bitwise_res (f : Z -> Z -> Z) (g : bool -> bool -> bool) w a b :
  (forall x y i, Z.testbit (f x y) i = g (Z.testbit x i) (Z.testbit y i)) -> g false false = false ->
  f (a mod M w) (b mod M w) = f a b mod M w.
Proof.
  intros Hf Hg. apply Z.bits_inj'. intros i Hi. unfold M. rewrite Hf.
  destruct (Z.ltb_spec i (bits w)).
  - rewrite !Z.mod_pow2_bits_low by lia. rewrite Hf. reflexivity.
  - rewrite !Z.mod_pow2_bits_high by (pose proof (bits_pos w); lia). exact Hg.
Qed.

(** Bitwise operations stay in range: sign bits agree from position w-1 on. *)
Lemma range_testbit w z : - H w <= z < H w <-> forall i, bits w - 1 <= i -> Z.testbit z i = Z.testbit z (bits w - 1).
Proof.
  assert (P : 0 <= bits w - 1) by (pose proof (bits_pos w); lia).
  split.
  - intros [Hl Hh] i Hi.
    assert (Q : forall y, 0 <= y < H w -> forall j, bits w - 1 <= j -> Z.testbit y j = false).
    { intros y Hy j Hj. destruct (Z.eq_dec y 0) as [->|Hn]; [apply Z.bits_0|].
      apply Z.bits_above_log2; [lia|].
      assert (Z.log2 y < bits w - 1) by (apply Z.log2_lt_pow2; [lia|apply Hy]). lia. }
    destruct (Z.le_gt_cases 0 z) as [Hz|Hz].
    + rewrite !(Q z) by lia. reflexivity.
    + rewrite <- (Z.lnot_involutive z), !(Z.lnot_spec (Z.lnot z)) by lia. f_equal.
      change (Z.lnot z) with (Z.pred (- z)). rewrite !Q by lia. reflexivity.
  - intros Hb. set (s := Z.testbit z (bits w - 1)) in *.
    destruct s eqn:E.
    + assert (Z.testbit (Z.lnot z) = fun i => Z.testbit (Z.lnot z) i) by reflexivity.
      assert (L : Z.lnot z = Z.lnot z mod H w).
      { apply Z.bits_inj'. intros i Hi. unfold H. destruct (Z.ltb_spec i (bits w - 1)).
        - rewrite Z.mod_pow2_bits_low by lia. reflexivity.
        - rewrite Z.mod_pow2_bits_high by lia. rewrite Z.lnot_spec by lia. rewrite Hb by lia. reflexivity. }
      pose proof (Z.mod_pos_bound (Z.lnot z) (H w) (H_pos w)). unfold Z.lnot in *. lia.
    + assert (L : z = z mod H w).
      { apply Z.bits_inj'. intros i Hi. unfold H. destruct (Z.ltb_spec i (bits w - 1)).
        - rewrite Z.mod_pow2_bits_low by lia. reflexivity.
        - rewrite Z.mod_pow2_bits_high by lia. rewrite Hb by lia. reflexivity. }
      pose proof (Z.mod_pos_bound z (H w) (H_pos w)). pose proof (H_pos w). lia.
Qed.

Lemma bitwise_range (f : Z -> Z -> Z) (g : bool -> bool -> bool) w a b :
  (forall x y i, Z.testbit (f x y) i = g (Z.testbit x i) (Z.testbit y i)) ->
  - H w <= a < H w -> - H w <= b < H w -> - H w <= f a b < H w.
Proof.
  intros Hf Ha Hb. rewrite range_testbit in *. intros i Hi. rewrite !Hf, (Ha i Hi), (Hb i Hi). reflexivity.
Qed.
Lemma com_range w a : - H w <= a < H w -> - H w <= Z.lnot a < H w.
Proof. unfold Z.lnot. lia. Qed.
