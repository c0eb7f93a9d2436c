(** Byte strings.

    A Go [string] or [[]byte] is modelled as a list of 8-bit characters
    ([Coq.Strings.Ascii.ascii] is exactly one byte).  Nothing in this file
    models a particular function of /repo; it only supplies the representation
    of Go's built-in strings, and the two number formats used by package fmt. *)
From Coq Require Export List Ascii String.
From Coq Require Import Arith NArith ZArith Lia Bool DecimalString.
Export ListNotations.

Notation text := (list ascii).

(** String literals: ["abc"] can be written wherever a [text] is expected. *)
Definition str (s : string) : text := list_ascii_of_string s.
Coercion str : string >-> list.

Definition nl : ascii := "010"%char.   (* '\n' *)
Definition cr : ascii := "013"%char.   (* '\r' *)
Definition tab : ascii := "009"%char.  (* '\t' *)
Definition sp : ascii := " "%char.
Definition dquote : ascii := "034"%char.

Definition text_eq_dec (a b : text) : {a = b} + {a <> b} := list_eq_dec ascii_dec a b.
Definition text_eqb (a b : text) : bool := if text_eq_dec a b then true else false.

Lemma text_eqb_spec a b : reflect (a = b) (text_eqb a b).
Proof. unfold text_eqb; destruct (text_eq_dec a b); constructor; assumption. Qed.

Lemma text_eqb_eq a b : text_eqb a b = true <-> a = b.
Proof. destruct (text_eqb_spec a b); split; congruence. Qed.

Lemma text_eqb_refl a : text_eqb a a = true.
Proof. apply text_eqb_eq; reflexivity. Qed.

Definition byte_val (c : ascii) : N := N_of_ascii c.

(** [in_range lo hi c]: lo <= c <= hi, comparing byte values. *)
Definition in_range (lo hi c : ascii) : bool :=
  (byte_val lo <=? byte_val c)%N && (byte_val c <=? byte_val hi)%N.

(** fmt's %d for a non-negative int. *)
Definition dec (n : nat) : text := str (NilZero.string_of_uint (Nat.to_uint n)).

(** fmt's %04d for a non-negative int: decimal, zero-padded to width 4. *)
Definition dec4 (n : nat) : text :=
  let d := dec n in repeat "0"%char (4 - List.length d) ++ d.

(** strings.HasPrefix *)
Fixpoint has_prefix (p s : text) : bool :=
  match p, s with
  | [], _ => true
  | a :: p', b :: s' => if ascii_dec a b then has_prefix p' s' else false
  | _ :: _, [] => false
  end.

(** Result of a Go function returning (T, error) that may also panic.  Errors
    and panics carry their message text. *)
Inductive res (A : Type) : Type :=
| Ok (a : A)
| Err (msg : text)
| Panic (msg : text).
Arguments Ok {A} a. Arguments Err {A} msg. Arguments Panic {A} msg.

Definition bind {A B} (r : res A) (k : A -> res B) : res B :=
  match r with Ok a => k a | Err m => Err m | Panic m => Panic m end.

Declare Scope res_scope.
Delimit Scope res_scope with res.
Notation "'let*' x := r 'in' k" := (bind r (fun x => k))
  (at level 200, x pattern, r at level 100, k at level 200, right associativity) : res_scope.
