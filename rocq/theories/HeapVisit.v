(** Model of ast.Walk and ast.Inspect (ast/walk.go:10-65) on the heap of Heap.v, for visitors
    that may read and write memory while the traversal is under way.  Walk.v models the same
    functions on trees, where a visitor cannot change what it is shown; VisitFacts.v relates
    the two.  Simplification: an interface that holds a slice (an OpcodeParts) is the address
    of the cell that holds its elements, whose number does not change while it is ranged over. *)
From Verif Require Import Text GoAst Ast Expand Heap.
From Coq Require Import Arith Bool.

(** ast.Node (ast/ast.go:10-12), as a Visit method gets it: a *ast.File, a *ast.Rule or a
    Value, an Op, or a part of an opcode. *)
Inductive hnode := HFile (p : ptr) | HWord (w : word) | HOp (o : hop) | HPart (p : oppart).

(** Whether a word is a *ast.Rule: Go's types keep these apart from ast.Value (ast/ast.go:20-32). *)
Definition is_rule (w : word) : bool := match w with WRule _ => true | _ => false end.

Section Visit.
  (** A Visitor, ast/walk.go:10-12: [V] is the type of visitors, [None] the nil visitor, and
      [S] what its Visit method keeps outside the tree. *)
  Context {V S : Type}.
  Variable visit : V -> hnode -> S -> M (option V * S).

  (** Walk at a part of an opcode, ast/walk.go:14-17,40-47. *)
  Definition h_visit_part (v : V) (p : oppart) (s : S) : M S :=
    do r <- visit v (HPart p) s;
    match fst r with
    | None => ret (snd r)
    | Some _ => match p with PCode _ | PAlt _ => ret (snd r) | PNilPart => panics (unexpected_type (str "<nil>")) end
    end.
  (** "for _, part := range n { Walk(v, part) }", ast/walk.go:35-38: each part is read when
      its turn comes; [k] parts remain from index [j]. *)
  Fixpoint h_visit_parts (v : V) (a k j : nat) (s : S) : M S :=
    match k with
    | 0 => ret s
    | Datatypes.S k' =>
        do c <- get a;
        match c with
        | CParts ps =>
            match nth_error ps j with
            | Some p => do s' <- h_visit_part v p s; h_visit_parts v a k' (Datatypes.S j) s'
            | None => panics ill_typed
            end
        | _ => panics ill_typed
        end
    end.
  (** Walk at an Op, ast/walk.go:14-17,35-47. *)
  Definition h_visit_op (v : V) (o : hop) (s : S) : M S :=
    do r <- visit v (HOp o) s;
    match fst r with
    | None => ret (snd r)
    | Some v' =>
        match o with
        | HOpcode _ => ret (snd r)
        | HParts a => do c <- get a; match c with CParts ps => h_visit_parts v' a (List.length ps) 0 (snd r) | _ => panics ill_typed end
        | HNilOp => panics (unexpected_type (str "<nil>"))
        end
    end.
  (** "for _, x := range xs { Walk(v, x) }", ast/walk.go:21-23,31-33: the slice is read once,
      its elements one by one; [k] elements remain from index [j]. *)
  Fixpoint h_visit_each (walk : word -> S -> M S) (xs : slice) (k j : nat) (s : S) : M S :=
    match k with
    | 0 => ret s
    | Datatypes.S k' => do w <- at_ xs j; do s' <- walk w s; h_visit_each walk xs k' (Datatypes.S j) s'
    end.
  (** Walk at a Value, ast/walk.go:14-17,29-33,43-47: Visit comes first, and the fields are
      read after it has returned, the arguments after the opcode was walked.  The fuel bounds
      the depth of the stack. *)
  Fixpoint h_visit_value (fuel : nat) (v : V) (w : word) (s : S) : M S :=
    match fuel with
    | 0 => panics (str "stack overflow")
    | Datatypes.S fuel' =>
        if is_rule w then panics ill_typed else
        do r <- visit v (HWord w) s;
        match fst r with
        | None => ret (snd r)
        | Some v' =>
            match w with
            | WSExpr None => panics nil_deref
            | WSExpr (Some p) =>
                do c <- get_sexpr p;
                do s' <- h_visit_op v' (h_op c) (snd r);
                do c <- get_sexpr p;
                h_visit_each (h_visit_value fuel' v') (h_args c) (sl_len (h_args c)) 0 s'
            | WExpr _ | WVar _ => ret (snd r)
            | WNil => panics (unexpected_type (str "<nil>"))
            | WRule _ => panics ill_typed
            end
        end
    end.
  (** Walk at a *ast.Rule, ast/walk.go:14-17,25-27. *)
  Definition h_visit_rule (fuel : nat) (v : V) (w : word) (s : S) : M S :=
    if negb (is_rule w) then panics ill_typed else
    do r <- visit v (HWord w) s;
    match fst r with
    | None => ret (snd r)
    | Some v' =>
        match w with
        | WRule None => panics nil_deref
        | WRule (Some p) =>
            do c <- get_rule p;
            do s' <- h_visit_value fuel v' (h_match c) (snd r);
            do c <- get_rule p;
            h_visit_value fuel v' (h_result c) s'
        | _ => panics ill_typed
        end
    end.
  (** Walk at a *ast.File, ast/walk.go:14-17,20-23. *)
  Definition h_visit_file (fuel : nat) (v : V) (f : ptr) (s : S) : M S :=
    do r <- visit v (HFile f) s;
    match fst r with
    | None => ret (snd r)
    | Some v' =>
        match f with
        | None => panics nil_deref
        | Some p =>
            do c <- get p;
            match c with
            | CFile rules => h_visit_each (h_visit_rule fuel v') rules (sl_len rules) 0 (snd r)
            | _ => panics ill_typed
            end
        end
    end.
  (** Walk, ast/walk.go:14-49. *)
  Definition h_Walk (fuel : nat) (v : V) (n : hnode) (s : S) : M S :=
    match n with
    | HFile f => h_visit_file fuel v f s
    | HWord (WRule r) => h_visit_rule fuel v (WRule r) s
    | HWord w => h_visit_value fuel v w s
    | HOp o => h_visit_op v o s
    | HPart p => h_visit_part v p s
    end.
End Visit.

(** inspector.Visit, ast/walk.go:60-65. *)
Definition h_inspector {S} (f : hnode -> S -> M (bool * S)) : unit -> hnode -> S -> M (option unit * S) :=
  fun _ n s => do r <- f n s; ret (if fst r then Some tt else None, snd r).
(** Inspect, ast/walk.go:54-56. *)
Definition h_Inspect {S} (f : hnode -> S -> M (bool * S)) (fuel : nat) (n : hnode) (s : S) : M S :=
  h_Walk (h_inspector f) fuel tt n s.
(** Contains, ast/walk.go:69-76; the variable found, captured by the callback, is the state. *)
Definition h_Contains (pred : hnode -> M bool) (fuel : nat) (n : hnode) : M bool :=
  h_Inspect (fun n (found : bool) => do found' <- (if found then ret true else pred n); ret (negb found', found')) fuel n false.
