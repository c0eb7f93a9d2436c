(** What a heap holds: the tree at a pointer, with any sharing. *)
From Verif Require Import Text GoAst Ast Heap.

Section At.
  Variable g : nat -> option cell.   (* the cells, [nth_error h] for a heap [h] *)
  Definition expr_at (p : ptr) (o : option gexpr) : Prop :=
    match p, o with None, None => True | Some a, Some e => g a = Some (CExpr e) | _, _ => False end.
  Definition op_at (x : hop) (o : op) : Prop :=
    match x, o with
    | HOpcode c, Opcode d => c = d
    | HParts a, OpcodeParts ps => g a = Some (CParts ps)
    | HNilOp, NilOp => True
    | _, _ => False
    end.
  (** The slice's elements are [ws]. *)
  Definition slice_at (sl : slice) (ws : list word) : Prop :=
    sl_len sl = List.length ws /\
    (ws = [] \/ exists a b, g (sl_arr sl) = Some (CArr (a ++ ws ++ b)) /\ List.length a = sl_off sl).
  Inductive value_at : word -> value -> Prop :=
  | at_sexpr p c s ws :
      g p = Some (CSExpr c) -> h_binding c = s_binding s -> op_at (h_op c) (s_op s) -> h_type c = s_type s ->
      expr_at (h_auxint c) (s_auxint s) -> expr_at (h_aux c) (s_aux s) ->
      slice_at (h_args c) ws -> Forall2 value_at ws (s_args s) ->
      h_ellipsis c = s_ellipsis s -> h_trailing c = s_trailing s -> value_at (WSExpr (Some p)) (SExp s)
  | at_expr p e : g p = Some (CExpr e) -> value_at (WExpr (Some p)) (EVal e)
  | at_var x : value_at (WVar x) (Var x)
  | at_nil : value_at WNil NilValue.
  Definition rule_at (w : word) (r : rule) : Prop :=
    exists p c, w = WRule (Some p) /\ g p = Some (CRule c) /\ value_at (h_match c) (r_match r) /\ expr_at (h_cond c) (r_cond r) /\
      h_block c = r_block r /\ value_at (h_result c) (r_result r).
  Definition file_at (p : nat) (f : file) : Prop :=
    exists sl ws, g p = Some (CFile sl) /\ slice_at sl ws /\ Forall2 rule_at ws (f_rules f).
End At.

(** Depth of recursion. *)
Fixpoint height (v : value) : nat :=
  match v with SExp s => S (fold_right Nat.max 0 (map height (s_args s))) | _ => 1 end.
Definition rule_height (r : rule) : nat := Nat.max (height (r_match r)) (height (r_result r)).
Definition file_height (f : file) : nat := fold_right Nat.max 0 (map rule_height (f_rules f)).
