(** What a visitor can do to memory while it is walked over, and what a walk can then run into. *)
From Verif Require Import Text GoAst Ast Heap HeapParse HeapVisit SpecHeap SpecTyped SpecBuilt.

(** A node of the type that Go says it has. *)
Definition node_typed (g : nat -> option cell) (n : hnode) : Prop :=
  match n with
  | HFile f => forall p, f = Some p -> exists sl, g p = Some (CFile sl)
  | HWord w => value_word g w \/ rule_word g w
  | HOp o => forall a, o = HParts a -> exists ps, g a = Some (CParts ps)
  | HPart _ => True
  end.

(** From memory [h], a program of its own (a callback, say) can come to memory [h']: it makes things, assigns to their
    fields and elements, parses and expands.  The length of a slice that is in an ast.Op does not change: its elements
    may, and the field that holds it may be assigned another. *)
Definition same_length (c c' : cell) : Prop :=
  match c, c' with CParts ps, CParts ps' => List.length ps = List.length ps' | _, _ => True end.
Inductive reaches (h : heap) : heap -> Prop :=
| reaches_here : reaches h h
| reaches_new h1 c : reaches h h1 -> typed_cell (nth_error h1) c -> reaches h (h1 ++ [c])
| reaches_assign h1 p c c' : reaches h h1 -> nth_error h1 p = Some c -> assignable (nth_error h1) c c' -> same_length c c' -> reaches h (write p c' h1)
| reaches_parse gp spare filename data h1 h2 r : reaches h h1 -> h_Parse gp spare filename data h1 = (h2, r) -> reaches h h2
| reaches_expand spare fuel f h1 h2 r : reaches h h1 -> file_ptr h1 f -> h_ExpandAlternates spare fuel f h1 = (h2, r) -> reaches h h2.

(** A node that ast.Walk can get past: no nil pointer to a struct whose fields it reads, and no nil interface. *)
Definition passable_op (g : nat -> option cell) (o : hop) : Prop :=
  match o with
  | HOpcode _ => True
  | HParts a => exists ps, g a = Some (CParts ps) /\ ~ In PNilPart ps
  | HNilOp => False
  end.
Definition passable (g : nat -> option cell) (w : word) : Prop :=
  match w with
  | WSExpr None | WRule None | WNil => False
  | WSExpr (Some p) => exists s, g p = Some (CSExpr s) /\ passable_op g (h_op s)
  | _ => True
  end.

(** The nodes below a node in memory, itself included. *)
Section Below.
  Variable g : nat -> option cell.
  Inductive child : hnode -> hnode -> Prop :=
  | child_rule p sl ws w : g p = Some (CFile sl) -> slice_at g sl ws -> In w ws -> child (HFile (Some p)) (HWord w)
  | child_match p r : g p = Some (CRule r) -> child (HWord (WRule (Some p))) (HWord (h_match r))
  | child_result p r : g p = Some (CRule r) -> child (HWord (WRule (Some p))) (HWord (h_result r))
  | child_op p s : g p = Some (CSExpr s) -> child (HWord (WSExpr (Some p))) (HOp (h_op s))
  | child_arg p s ws w : g p = Some (CSExpr s) -> slice_at g (h_args s) ws -> In w ws -> child (HWord (WSExpr (Some p))) (HWord w)
  | child_part a ps x : g a = Some (CParts ps) -> In x ps -> child (HOp (HParts a)) (HPart x).
  Inductive below (n : hnode) : hnode -> Prop :=
  | below_here : below n n
  | below_child m x : child n m -> below m x -> below n x.
End Below.
