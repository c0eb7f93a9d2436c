(** The memory that a program can come to, by calling the packages and by building and editing rules itself. *)
From Verif Require Import Text GoAst Ast Heap HeapParse SpecHeap SpecTyped.

(** An object of the type of [c] holds [c'] after an assignment to its fields or elements: what is assigned has the type
    of the field or element. *)
Definition assignable (g : nat -> option cell) (c c' : cell) : Prop :=
  match c, c' with
  | CSExpr _, CSExpr _ | CRule _, CRule _ | CFile _, CFile _ => typed_cell g c'
  | CExpr _, CExpr _ | CParts _, CParts _ => True
  | CArr l, CArr l' => List.length l = List.length l' /\
      (Forall (value_word g) l -> Forall (value_word g) l') /\ (Forall (rule_word g) l -> Forall (rule_word g) l')
  | _, _ => False
  end.
Definition file_ptr (h : heap) (f : ptr) : Prop := forall p, f = Some p -> exists sl, nth_error h p = Some (CFile sl).
Inductive built : heap -> Prop :=
| built_nothing : built []
| built_new h c : built h -> typed_cell (nth_error h) c -> built (h ++ [c])
| built_assign h p c c' : built h -> nth_error h p = Some c -> assignable (nth_error h) c c' -> built (write p c' h)
| built_parse gp spare filename data h h' r : built h -> h_Parse gp spare filename data h = (h', r) -> built h'
| built_expand spare fuel f h h' r : built h -> file_ptr h f -> h_ExpandAlternates spare fuel f h = (h', r) -> built h'.
