(** Where a printed rule can have line breaks. *)
From Verif Require Import Text GoAst Ast SpecSyntax SpecTrees SpecBack.
From Coq Require Import Arith.

(** How many line breaks a text has. *)
Fixpoint breaks (t : text) : nat :=
  match t with [] => 0 | c :: t' => (if ascii_dec c nl then 1 else 0) + breaks t' end.
Fixpoint sum (l : list nat) : nat := match l with [] => 0 | n :: l' => n + sum l' end.

(** The types in a value. *)
Fixpoint value_types (v : value) : list text :=
  match v with
  | SExp s => s_type s :: flat_map value_types (s_args s)
  | EVal _ | Var _ | NilValue => []
  end.
(** The parts of a rule whose characters are nearly arbitrary: types, the block, and the
    literals of its Go expressions. *)
Definition free_parts (r : rule) : list text :=
  value_types (r_match r) ++ value_types (r_result r) ++ [r_block r] ++ flat_map literals (rule_exprs r).
