(** Model of package ast (ast/ast.go): the syntax tree of a rules file.

    Go interfaces are sealed in this package, so each interface is an inductive
    type with one constructor per implementing type plus one for the nil
    interface.  Pointers to structs are represented by the struct value
    (aliasing is dealt with separately in Heap.v); typed nil pointers are not
    represented. *)
From Verif Require Import Text GoAst.

(** ast.OpPart, ast/ast.go:65-68, with its implementations ast.Opcode
    (ast/ast.go:53-56) and ast.OpcodeAlt (ast/ast.go:70-73). *)
Inductive oppart :=
| PCode (c : text)             (* ast.Opcode *)
| PAlt (alts : list text)      (* ast.OpcodeAlt *)
| PNilPart.                    (* nil *)

(** ast.Op, ast/ast.go:48-51, with its implementations ast.Opcode
    (ast/ast.go:53-58) and ast.OpcodeParts (ast/ast.go:60-63). *)
Inductive op :=
| Opcode (c : text)
| OpcodeParts (ps : list oppart)
| NilOp.

(** ast.SExpr, ast/ast.go:34-43.  The type parameter stands for ast.Value.
    AuxInt and Aux are *Expr: [None] is the nil pointer. *)
Record sexprF (V : Type) := mkSExpr {
  s_binding : text;
  s_op : op;
  s_type : text;
  s_auxint : option gexpr;
  s_aux : option gexpr;
  s_args : list V;
  s_ellipsis : bool;
  s_trailing : bool
}.
Arguments mkSExpr {V}. Arguments s_binding {V}. Arguments s_op {V}.
Arguments s_type {V}. Arguments s_auxint {V}. Arguments s_aux {V}.
Arguments s_args {V}. Arguments s_ellipsis {V}. Arguments s_trailing {V}.

(** ast.Value, ast/ast.go:29-32: *SExpr, *Expr (ast/ast.go:77-82) and Variable
    (ast/ast.go:84-87). *)
Inductive value :=
| SExp (s : sexprF value)
| EVal (e : gexpr)
| Var (x : text)
| NilValue.

Notation sexpr := (sexprF value).

(** ast.Rule, ast/ast.go:20-25. *)
Record rule := mkRule {
  r_match : value;
  r_cond : option gexpr;
  r_block : text;
  r_result : value
}.

(** ast.File, ast/ast.go:14-16. *)
Record file := mkFile { f_rules : list rule }.

(** ast.Placeholder, ast/ast.go:89. *)
Definition Placeholder : text := "_"%string.

(** ast.Node, ast/ast.go:10-12 (sealed): the dynamic type of a Node value. *)
Inductive node :=
| NFile (f : file)
| NRule (r : rule)
| NSExpr (s : sexpr)
| NExpr (e : gexpr)
| NVar (x : text)
| NOpcode (c : text)
| NParts (ps : list oppart)
| NAlt (alts : list text)
| NNil.

(** Implicit interface conversions Value -> Node, Op -> Node, OpPart -> Node (ast/ast.go:29-32, as at ast/walk.go:26-27). *)
Definition node_of_value (v : value) : node :=
  match v with SExp s => NSExpr s | EVal e => NExpr e | Var x => NVar x | NilValue => NNil end.
(** ast/ast.go:48-51, as at ast/walk.go:30. *)
Definition node_of_op (o : op) : node :=
  match o with Opcode c => NOpcode c | OpcodeParts ps => NParts ps | NilOp => NNil end.
(** ast/ast.go:65-68, as at ast/walk.go:37. *)
Definition node_of_part (p : oppart) : node :=
  match p with PCode c => NOpcode c | PAlt a => NAlt a | PNilPart => NNil end.

(** What fmt's %T prints for the dynamic type of a Node (internal/errutil/errutil.go:21). *)
Definition node_type (n : node) : text :=
  match n with
  | NFile _ => "*ast.File" | NRule _ => "*ast.Rule" | NSExpr _ => "*ast.SExpr"
  | NExpr _ => "*ast.Expr" | NVar _ => "ast.Variable" | NOpcode _ => "ast.Opcode"
  | NParts _ => "ast.OpcodeParts" | NAlt _ => "ast.OpcodeAlt" | NNil => "<nil>"
  end%string.

(** internal/errutil/errutil.go:9-22. *)
Definition not_supported (m : text) : text := str "not supported: " ++ m.
(** errutil.AssertionFailure, internal/errutil/errutil.go:15-17 (the format is applied by the caller). *)
Definition assertion_failure (m : text) : text := str "assertion failure: " ++ m.
(** errutil.UnexpectedType, internal/errutil/errutil.go:20-22; [t] is the %T of the argument. *)
Definition unexpected_type (t : text) : text := assertion_failure (str "unexpected type " ++ t).

(** Induction principle for values that goes through argument lists. *)
Section ValueInd.
  Variable P : value -> Prop.
  Hypothesis HS : forall s, Forall P (s_args s) -> P (SExp s).
  Hypothesis HE : forall e, P (EVal e).
  Hypothesis HV : forall x, P (Var x).
  Hypothesis HN : P NilValue.

  (** Induction on values, for proofs only. *)
  Fixpoint value_ind' (v : value) : P v :=
    match v with
    | SExp s =>
        HS s ((fix go (l : list value) : Forall P l :=
                 match l with
                 | [] => Forall_nil P
                 | a :: l' => Forall_cons a (value_ind' a) (go l')
                 end) (s_args s))
    | EVal e => HE e
    | Var x => HV x
    | NilValue => HN
    end.
End ValueInd.
