(** Model of ast/walk.go and rules/rules.go. *)
From Verif Require Import Text GoAst Ast.

(** Outcome of a traversal that threads a state and may panic (ast/walk.go:14-49). *)
Inductive wout (S : Type) := WDone (s : S) | WPanic (msg : text) (s : S).
Arguments WDone {S}. Arguments WPanic {S}.

(** Statement sequence in ast/walk.go:14-49: a panic ends it. *)
Definition wbind {S} (o : wout S) (k : S -> wout S) : wout S :=
  match o with WDone s => k s | WPanic m s => WPanic m s end.

(** A loop "for _, x := range xs { body }" whose body threads the state (ast/walk.go:21-38). *)
Definition wfor {A S} (body : A -> S -> wout S) : list A -> S -> wout S :=
  fix loop (xs : list A) (s : S) : wout S :=
    match xs with
    | [] => WDone s
    | x :: xs' => wbind (body x s) (fun s' => loop xs' s')
    end.

Section Walk.
  (** A Visitor (ast/walk.go:10-12) is any object with a Visit method.  [V] is
      the type of visitors, [S] all the state their Visit method may read or
      write; [None] is a nil Visitor result. *)
  Context {V S : Type}.
  Variable visit : V -> node -> S -> option V * S.

  (** ast.Walk at an Op, ast/walk.go:14-17,35-41 (case OpcodeParts before case Op:
      the parts of a multi-part opcode are visited, a plain opcode is a leaf). *)
  Definition walk_part (v : V) (p : oppart) (s : S) : wout S :=
    match visit v (node_of_part p) s with
    | (None, s') => WDone s'
    | (Some _, s') =>
        match p with
        | PCode _ | PAlt _ => WDone s'                       (* walk.go:40-41 *)
        | PNilPart => WPanic (unexpected_type "<nil>"%string) s' (* walk.go:46-47 *)
        end
    end.

  Definition walk_op (v : V) (o : op) (s : S) : wout S :=
    match visit v (node_of_op o) s with
    | (None, s') => WDone s'
    | (Some v', s') =>
        match o with
        | OpcodeParts ps => wfor (walk_part v') ps s'        (* walk.go:35-38 *)
        | Opcode _ => WDone s'                               (* walk.go:40-41 *)
        | NilOp => WPanic (unexpected_type "<nil>"%string) s'
        end
    end.

  (** ast.Walk at a Value, ast/walk.go:14-17,29-33,43-47. *)
  Fixpoint walk_value (v : V) (x : value) (s : S) {struct x} : wout S :=
    match visit v (node_of_value x) s with
    | (None, s') => WDone s'
    | (Some v', s') =>
        match x with
        | SExp e =>
            wbind (walk_op v' (s_op e) s')
                  (fun s'' => wfor (fun a => walk_value v' a) (s_args e) s'')
        | EVal _ | Var _ => WDone s'
        | NilValue => WPanic (unexpected_type "<nil>"%string) s'
        end
    end.

  (** ast.Walk at a *Rule, ast/walk.go:25-27. *)
  Definition walk_rule (v : V) (r : rule) (s : S) : wout S :=
    match visit v (NRule r) s with
    | (None, s') => WDone s'
    | (Some v', s') =>
        wbind (walk_value v' (r_match r) s') (walk_value v' (r_result r))
    end.

  (** ast.Walk, ast/walk.go:14-49. *)
  Definition walk (v : V) (n : node) (s : S) : wout S :=
    match n with
    | NFile f =>
        match visit v n s with
        | (None, s') => WDone s'
        | (Some v', s') => wfor (walk_rule v') (f_rules f) s'
        end
    | NRule r => walk_rule v r s
    | NSExpr e => walk_value v (SExp e) s
    | NExpr e => walk_value v (EVal e) s
    | NVar x => walk_value v (Var x) s
    | NOpcode c => walk_op v (Opcode c) s
    | NParts ps => walk_op v (OpcodeParts ps) s
    | NAlt a => walk_part v (PAlt a) s
    | NNil => walk_value v NilValue s
    end.
End Walk.

(** ast.Inspect and inspector.Visit, ast/walk.go:54-65.  The callback may have
    side effects on a state [S]. *)
Definition inspector {S} (f : node -> S -> bool * S) : unit -> node -> S -> option unit * S :=
  fun _ n s => let '(b, s') := f n s in ((if b then Some tt else None), s').

(** Inspect, ast/walk.go:54-56, with inspector.Visit, ast/walk.go:60-65. *)
Definition inspect {S} (f : node -> S -> bool * S) (n : node) (s : S) : wout S :=
  walk (inspector f) tt n s.

(** ast.Contains, ast/walk.go:69-76.  The captured variable [found] is the state;
    the predicate may itself have effects on a state [S]. *)
Definition contains_eff {S} (pred : node -> S -> bool * S) (n : node) (s : S) : res (bool * S) :=
  let f n (st : bool * S) :=
    let '(found, s) := st in
    let '(found', s') := if found then (true, s) else pred n s in
    (negb found', (found', s')) in
  match inspect f n (false, s) with
  | WDone st => Ok st
  | WPanic m _ => Panic m
  end.

(** ast.Contains with a pure predicate. *)
Open Scope res_scope.
(** Contains, ast/walk.go:69-76; the state is the local variable found. *)
Definition contains (pred : node -> bool) (n : node) : res bool :=
  let* st := contains_eff (fun n (_ : unit) => (pred n, tt)) n tt in Ok (fst st).

(** rules/rules.go:5-45.  Each predicate inspects SExpr nodes only. *)
Definition is_nonempty (t : text) : bool := match t with [] => false | _ => true end.
(** "x != nil", as in rules/rules.go:22 and 29. *)
Definition is_some {A} (o : option A) : bool := match o with Some _ => true | None => false end.

(** The type assertion to a pointer to SExpr, and what follows it: the predicates of rules/rules.go:5-45. *)
Definition on_sexpr (p : sexpr -> bool) (n : node) : bool :=
  match n with NSExpr s => p s | _ => false end.

Definition HasBinding (r : rule) : res bool :=      (* rules.go:5-10 *)
  contains (on_sexpr (fun s => is_nonempty (s_binding s))) (NRule r).
Definition HasType (r : rule) : res bool :=         (* rules.go:12-17 *)
  contains (on_sexpr (fun s => is_nonempty (s_type s))) (NRule r).
Definition HasAux (r : rule) : res bool :=          (* rules.go:19-24 *)
  contains (on_sexpr (fun s => is_some (s_aux s))) (NRule r).
Definition HasAuxInt (r : rule) : res bool :=       (* rules.go:26-31 *)
  contains (on_sexpr (fun s => is_some (s_auxint s))) (NRule r).
Definition HasEllipsis (r : rule) : res bool :=     (* rules.go:33-38 *)
  contains (on_sexpr s_ellipsis) (NRule r).
Definition HasTrailing (r : rule) : res bool :=     (* rules.go:40-45 *)
  contains (on_sexpr s_trailing) (NRule r).
