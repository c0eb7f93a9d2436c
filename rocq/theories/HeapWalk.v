(** Model of ast.Contains (ast/walk.go:14-76) and rules.Has* (rules/rules.go) on the heap of
    Heap.v.  Walk.v models the same functions on trees; HeapWalkFacts.v relates the two. *)
From Verif Require Import Text GoAst Ast Expand Heap.
From Coq Require Import Arith Bool.

(** The feature tests of rules/rules.go:5-45, on the fields of an *ast.SExpr. *)
Inductive feature := FBinding | FType | FAux | FAuxInt | FEllipsis | FTrailing.
(** The conditions of rules/rules.go:8,15,22,29,36,43 on one s-expression. *)
Definition h_test (x : feature) (s : hsexpr) : bool :=
  match x with
  | FBinding => match h_binding s with [] => false | _ => true end
  | FType => match h_type s with [] => false | _ => true end
  | FAux => match h_aux s with None => false | Some _ => true end
  | FAuxInt => match h_auxint s with None => false | Some _ => true end
  | FEllipsis => h_ellipsis s
  | FTrailing => h_trailing s
  end.

(** "for _, part := range n { Walk(v, part) }", ast/walk.go:35-38: parts are leaves. *)
Fixpoint h_walk_parts (ps : list oppart) : M bool :=
  match ps with
  | [] => ret false
  | PNilPart :: _ => panics (unexpected_type (str "<nil>"))
  | _ :: ps' => h_walk_parts ps'
  end.
(** Walk(v, n.Op), ast/walk.go:30, while nothing was found. *)
Definition h_walk_op (o : hop) : M bool :=
  match o with
  | HOpcode _ => ret false
  | HParts a => do c <- get a; match c with CParts ps => h_walk_parts ps | _ => panics ill_typed end
  | HNilOp => panics (unexpected_type (str "<nil>"))
  end.
(** "for _, arg := range n.Args { Walk(v, arg) }", ast/walk.go:31-33; [k] arguments remain
    from index [j]. *)
Fixpoint h_walk_args (walk : word -> bool -> M bool) (args : slice) (k j : nat) (found : bool) : M bool :=
  match k with
  | 0 => ret found
  | S k' => do w <- at_ args j; do found' <- walk w found; h_walk_args walk args k' (S j) found'
  end.
(** Walk (ast/walk.go:14-49) at a Value with the inspector of Contains (ast/walk.go:69-76)
    for the test [x]; [found] is the captured variable.  The fuel bounds the stack. *)
Fixpoint h_walk (x : feature) (fuel : nat) (v : word) (found : bool) : M bool :=
  match fuel with
  | 0 => panics (str "stack overflow")
  | S fuel' =>
      if found then ret true else
      match v with
      | WSExpr None => panics nil_deref
      | WSExpr (Some s) =>
          do c <- get_sexpr s;
          if h_test x c then ret true else
          do f <- h_walk_op (h_op c);
          h_walk_args (h_walk x fuel') (h_args c) (sl_len (h_args c)) 0 f
      | WExpr _ | WVar _ => ret false
      | WNil => panics (unexpected_type (str "<nil>"))
      | WRule _ => panics ill_typed
      end
  end.
(** HasBinding, HasType, HasAux, HasAuxInt, HasEllipsis, HasTrailing, rules/rules.go:5-45. *)
Definition h_has (x : feature) (fuel : nat) (r : ptr) : M bool :=
  match r with
  | None => panics nil_deref
  | Some r =>
      do c <- get_rule r;
      do f <- h_walk x fuel (h_match c) false;
      do c <- get_rule r;
      h_walk x fuel (h_result c) f
  end.
