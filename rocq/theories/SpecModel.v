(** What a solver's model of a script says about the rule. *)
From Verif Require Import Text GoAst Ast SpecSmt.
From Coq Require Import ZArith.
Open Scope Z_scope.

(** [stands t v u]: the solver's value u stands for the Go value v of type t: the same
    truth value, or the same bits (two's complement). *)
Inductive stands : ty -> gval -> sval -> Prop :=
| stands_bool b : stands TyBool (VB b) (SB b)
| stands_int w z u :
    - 2 ^ (bits w - 1) <= z < 2 ^ (bits w - 1) -> 0 <= u < 2 ^ bits w -> u = z \/ u = z + 2 ^ bits w ->
    stands (TyInt w) (VI z) (SV (bits w) u).

(** An interpretation of the declared constants that makes every assertion true. *)
Definition solver_model (cmds : list command) (sigma : text -> sval) : Prop :=
  (forall x s, In (DeclareConst x s) cmds -> sval_of s (sigma x)) /\
  (forall t, In (Assert t) cmds -> term_val sigma t = Some (SB true)).
(** Values of the variables for which the two sides of the rule differ. *)
Definition counterexample (r : rule) (rho : text -> gval) : Prop :=
  exists a b, meaning rho (r_match r) = Some a /\ meaning rho (r_result r) = Some b /\ a <> b.
