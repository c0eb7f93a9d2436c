(** Model of parse/internal/goexpr/parse.go. *)
From Verif Require Import Text GoAst Ast.
Open Scope res_scope.

(** clearpos, parse/internal/goexpr/parse.go:24-57, seen as a function from the
    tree to the updated tree: every position field of a supported node is reset.
    Note that CallExpr.Ellipsis is both a position and the marker of a variadic
    call f(xs...). *)
Fixpoint clear (e : gexpr) : gexpr :=
  match e with
  | GIdent _ n => GIdent NoPos n
  | GBasicLit _ k v => GBasicLit NoPos k v
  | GParen _ x _ => GParen NoPos (clear x) NoPos
  | GUnary _ o x => GUnary NoPos o (clear x)
  | GBinary x _ o y => GBinary (clear x) NoPos o (clear y)
  | GCall f _ args _ _ => GCall (clear f) NoPos (map clear args) NoPos NoPos
  | GStar _ x => GStar NoPos (clear x)
  | GSelector x _ s => GSelector (clear x) NoPos s
  | GOther t => GOther t
  | GNil => GNil
  end.

(** The error variable of clearpos: goast.Inspect visits the tree in preorder and
    each node of an unsupported type overwrites err (parse.go:50-52); children of
    such a node are not visited. *)
Definition later (a b : option text) : option text := match b with Some _ => b | None => a end.
(** The default case of the switch in clearpos, parse/internal/goexpr/parse.go:50-52: the first type met (in the order of goast.Inspect) that is not listed; after it, the walk goes on with the siblings and err is overwritten. *)
Fixpoint unsupported (e : gexpr) : option text :=
  match e with
  | GIdent _ _ | GBasicLit _ _ _ => None
  | GParen _ x _ | GUnary _ _ x | GStar _ x | GSelector x _ _ => unsupported x
  | GBinary x _ _ y => later (unsupported x) (unsupported y)
  | GCall f _ args _ _ =>
      fold_left (fun acc a => later acc (unsupported a)) args (unsupported f)
  | GOther t => Some t
  | GNil => None
  end.

Section Parse.
  (** go/parser.ParseExpr: external. *)
  Variable parse_expr : text -> res gexpr.

  (** Parse, parse/internal/goexpr/parse.go:11-22. *)
  Definition goexpr_parse (x : text) : res gexpr :=
    let* e := parse_expr x in
    match unsupported e with
    | Some t => Err (unexpected_type t)
    | None => Ok (clear e)
    end.
End Parse.
