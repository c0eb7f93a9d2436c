(** The memory that a tree is made of: every cell that can be reached from a pointer, once for each way
    of reaching it. *)
From Verif Require Import Text GoAst Ast Heap SpecHeap.

Section Cells.
  Variable g : nat -> option cell.   (* the cells, [nth_error h] for a heap [h] *)
  Definition ptr_cells (p : ptr) : list nat := match p with Some a => [a] | None => [] end.
  Definition op_cells (o : hop) : list nat := match o with HParts a => [a] | _ => [] end.
  (** The array of a slice, with its spare capacity; a slice without elements or capacity has none. *)
  Definition slice_cells (s : slice) : list nat := match sl_cap s + sl_len s with 0 => [] | _ => [sl_arr s] end.
  Inductive value_cells : word -> list nat -> Prop :=
  | vc_sexpr p c ws css : g p = Some (CSExpr c) -> slice_at g (h_args c) ws -> Forall2 value_cells ws css ->
      value_cells (WSExpr (Some p))
        (p :: op_cells (h_op c) ++ ptr_cells (h_auxint c) ++ ptr_cells (h_aux c) ++ slice_cells (h_args c) ++ List.concat css)
  | vc_expr p : value_cells (WExpr p) (ptr_cells p)
  | vc_var x : value_cells (WVar x) []
  | vc_nil : value_cells WNil [].
  Definition rule_cells (w : word) (cs : list nat) : Prop :=
    exists p c m r, w = WRule (Some p) /\ g p = Some (CRule c) /\ value_cells (h_match c) m /\ value_cells (h_result c) r /\
      cs = p :: m ++ ptr_cells (h_cond c) ++ r.
  Definition file_cells (p : nat) (cs : list nat) : Prop :=
    exists sl ws css, g p = Some (CFile sl) /\ slice_at g sl ws /\ Forall2 rule_cells ws css /\
      cs = p :: slice_cells sl ++ List.concat css.
End Cells.
