(** Structures that may hold nil pointers: which ones do. *)
From Verif Require Import Text GoAst Ast Heap SpecHeap.

Section Nil.
  Variable g : nat -> option cell.
  (** A value with at most [n] levels, well typed, in which any pointer may be nil. *)
  Fixpoint shaped (n : nat) (w : word) : Prop :=
    match n with
    | 0 => False
    | S m =>
        match w with
        | WSExpr (Some p) => exists c ws o ai ax, g p = Some (CSExpr c) /\ op_at g (h_op c) o /\
            expr_at g (h_auxint c) ai /\ expr_at g (h_aux c) ax /\ slice_at g (h_args c) ws /\ Forall (shaped m) ws
        | WExpr (Some p) => exists e, g p = Some (CExpr e)
        | WSExpr None | WExpr None | WVar _ | WNil => True
        | WRule _ => False
        end
    end.
  Definition shaped_rule (n : nat) (p : nat) : Prop :=
    exists c o, g p = Some (CRule c) /\ shaped n (h_match c) /\ expr_at g (h_cond c) o /\ shaped n (h_result c).
  (** A nil *ast.SExpr or *ast.Expr stands for a value or an argument. *)
  Inductive holds_nil : word -> Prop :=
  | nil_sexpr : holds_nil (WSExpr None)
  | nil_expr : holds_nil (WExpr None)
  | nil_arg p c ws w : g p = Some (CSExpr c) -> slice_at g (h_args c) ws -> In w ws -> holds_nil w -> holds_nil (WSExpr (Some p)).
  Definition rule_holds_nil (p : nat) : Prop :=
    exists c, g p = Some (CRule c) /\ (holds_nil (h_match c) \/ holds_nil (h_result c)).
End Nil.
