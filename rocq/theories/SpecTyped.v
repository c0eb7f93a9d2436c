(** Memory in which everything has the type that ast/ast.go gives it, and nothing else is assumed: pointers may be nil,
    shared, or lead back to where they came from. *)
From Verif Require Import Text GoAst Ast Expand Heap HeapWalk SpecHeap SpecExpand.

Section Types.
  Variable g : nat -> option cell.   (* the cells, [nth_error h] for a heap [h] *)
  (** A *ast.Expr; an ast.Value; a *ast.Rule. *)
  Definition expr_ptr (p : ptr) : Prop := forall a, p = Some a -> exists e, g a = Some (CExpr e).
  Definition value_word (w : word) : Prop :=
    match w with
    | WSExpr p => forall a, p = Some a -> exists s, g a = Some (CSExpr s)
    | WExpr p => expr_ptr p
    | WVar _ | WNil => True
    | WRule _ => False
    end.
  Definition rule_word (w : word) : Prop :=
    match w with WRule p => forall a, p = Some a -> exists r, g a = Some (CRule r) | _ => False end.
  (** A slice whose elements are [P]: within its array, all of which is [P]. *)
  Definition slice_of (P : word -> Prop) (s : slice) : Prop :=
    sl_len s <= sl_cap s /\
    (sl_cap s = 0 \/ exists l, g (sl_arr s) = Some (CArr l) /\ sl_off s + sl_cap s <= List.length l /\ Forall P l).
  Definition typed_cell (c : cell) : Prop :=
    match c with
    | CSExpr s => (forall a, h_op s = HParts a -> exists ps, g a = Some (CParts ps)) /\ expr_ptr (h_auxint s) /\ expr_ptr (h_aux s) /\ slice_of value_word (h_args s)
    | CRule r => value_word (h_match r) /\ expr_ptr (h_cond r) /\ value_word (h_result r)
    | CFile sl => slice_of rule_word sl
    | CArr _ | CExpr _ | CParts _ => True
    end.
  Definition typed : Prop := forall a c, g a = Some c -> typed_cell c.

  (** [x] is the value [w], or an argument of it, or an argument of an argument, and so on. *)
  Inductive within_value : word -> word -> Prop :=
  | within_here w : within_value w w
  | within_arg p s ws w x : g p = Some (CSExpr s) -> slice_at g (h_args s) ws -> In w ws -> within_value w x -> within_value (WSExpr (Some p)) x.
  (** The S-expression at [p] is an argument (of an argument ...) of itself. *)
  Definition cyclic (p : nat) : Prop :=
    exists s ws w, g p = Some (CSExpr s) /\ slice_at g (h_args s) ws /\ In w ws /\ within_value w (WSExpr (Some p)).
  Definition within_rule (w : word) (x : word) : Prop :=
    exists p r, w = WRule (Some p) /\ g p = Some (CRule r) /\ (within_value (h_match r) x \/ within_value (h_result r) x).
End Types.

(** Go's run-time panics for nil pointers and for a stack that has run out. *)
Definition stack_overflow : text := str "stack overflow".
Definition nil_or_overflow (m : text) : Prop := m = nil_deref \/ m = stack_overflow.
(** The panic of an opcode in memory whose alternatives do not fit together (C26). *)
Definition opcode_panic (g : nat -> option cell) (m : text) : Prop :=
  exists a ps, g a = Some (CParts ps) /\ lopsided (OpcodeParts ps) /\ expandop (OpcodeParts ps) = Panic m.

(** The S-expression has the feature (rules/rules.go). *)
Definition shows (x : feature) (s : hsexpr) : Prop :=
  match x with
  | FBinding => h_binding s <> []
  | FType => h_type s <> []
  | FAux => h_aux s <> None
  | FAuxInt => h_auxint s <> None
  | FEllipsis => h_ellipsis s = true
  | FTrailing => h_trailing s = true
  end.
