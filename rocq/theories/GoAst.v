(** The fragment of Go's go/ast and go/token used by the repository.

    These types belong to the Go standard library, not to /repo; they are what
    the [ast.Expr.Expr] field (ast/ast.go:77-79) holds.  Only the node types
    that printer/printer.go:184-220 and parse/internal/goexpr/parse.go:26-55
    distinguish have their own constructor: every other go/ast expression type
    is [GOther] with its dynamic type name (the text that fmt's %T prints).
    Simplification: ast.Ident.Obj (resolution data) is not represented; a
    selector's Sel, which Go declares as *Ident, is a position and a name;
    typed nil pointers are not represented. *)
From Verif Require Import Text.
From Coq Require Import NArith.

(** go/token: the operators that go/parser puts in UnaryExpr and BinaryExpr (printer/printer.go:180-201 tells some of them apart). *)
Inductive gotok :=
| LOR | LAND
| EQL | NEQ | LSS | LEQ | GTR | GEQ
| ADD | SUB | OR | XOR
| MUL | QUO | REM | SHL | SHR | AND | AND_NOT
| NOT | ARROW | TILDE.

(** Equality of token.Token: switch in printer/printer.go:180-201. *)
Definition gotok_eq_dec (a b : gotok) : {a = b} + {a <> b}.
Proof. decide equality. Defined.

(** token.Token.String (printed at printer/printer.go:182,202). *)
Definition tok_string (t : gotok) : text :=
  match t with
  | LOR => "||" | LAND => "&&"
  | EQL => "==" | NEQ => "!=" | LSS => "<" | LEQ => "<=" | GTR => ">" | GEQ => ">="
  | ADD => "+" | SUB => "-" | OR => "|" | XOR => "^"
  | MUL => "*" | QUO => "/" | REM => "%" | SHL => "<<" | SHR => ">>"
  | AND => "&" | AND_NOT => "&^"
  | NOT => "!" | ARROW => "<-" | TILDE => "~"
  end%string.

(** token.Token.Precedence: LowestPrec (0) for non-binary operators (go/token). *)
Definition tok_prec (t : gotok) : nat :=
  match t with
  | LOR => 1
  | LAND => 2
  | EQL | NEQ | LSS | LEQ | GTR | GEQ => 3
  | ADD | SUB | OR | XOR => 4
  | MUL | QUO | REM | SHL | SHR | AND | AND_NOT => 5
  | NOT | ARROW | TILDE => 0
  end.

(** token.Token of a BasicLit (go/token). *)
Inductive litkind := LInt | LFloat | LImag | LChar | LString.

(** Equality of the literal kinds (token.Token). *)
Definition litkind_eq_dec (a b : litkind) : {a = b} + {a <> b}.
Proof. decide equality. Defined.

(** token.Pos; token.NoPos = 0 (go/token; cleared by parse/internal/goexpr/parse.go:24-57). *)
Definition gopos := N.
(** token.NoPos, parse/internal/goexpr/parse.go:32-47. *)
Definition NoPos : gopos := 0%N.

(** go/ast.Expr: what ast.Expr holds (ast/ast.go:77-79). *)
Inductive gexpr :=
| GIdent (namepos : gopos) (name : text)
| GBasicLit (valuepos : gopos) (kind : litkind) (value : text)
| GParen (lparen : gopos) (x : gexpr) (rparen : gopos)
| GUnary (oppos : gopos) (op : gotok) (x : gexpr)
| GBinary (x : gexpr) (oppos : gopos) (op : gotok) (y : gexpr)
| GCall (fn : gexpr) (lparen : gopos) (args : list gexpr) (ellipsis : gopos) (rparen : gopos)
| GStar (star : gopos) (x : gexpr)
| GSelector (x : gexpr) (selpos : gopos) (sel : text)
| GOther (typename : text)
| GNil.  (* nil interface *)

(** The text that fmt's %T prints for the dynamic type of an expression (internal/errutil/errutil.go:21). *)
Definition gexpr_type (e : gexpr) : text :=
  match e with
  | GIdent _ _ => "*ast.Ident" | GBasicLit _ _ _ => "*ast.BasicLit"
  | GParen _ _ _ => "*ast.ParenExpr" | GUnary _ _ _ => "*ast.UnaryExpr"
  | GBinary _ _ _ _ => "*ast.BinaryExpr" | GCall _ _ _ _ _ => "*ast.CallExpr"
  | GStar _ _ => "*ast.StarExpr" | GSelector _ _ _ => "*ast.SelectorExpr"
  | GOther t => t
  | GNil => str "<nil>"%string
  end%string.

(** Induction principle that goes through the argument list of calls. *)
Section GexprInd.
  Variable P : gexpr -> Prop.
  Hypothesis HIdent : forall p n, P (GIdent p n).
  Hypothesis HLit : forall p k v, P (GBasicLit p k v).
  Hypothesis HParen : forall l x r, P x -> P (GParen l x r).
  Hypothesis HUnary : forall p o x, P x -> P (GUnary p o x).
  Hypothesis HBinary : forall x p o y, P x -> P y -> P (GBinary x p o y).
  Hypothesis HCall : forall f l args e r, P f -> Forall P args -> P (GCall f l args e r).
  Hypothesis HStar : forall p x, P x -> P (GStar p x).
  Hypothesis HSel : forall x p s, P x -> P (GSelector x p s).
  Hypothesis HOther : forall t, P (GOther t).
  Hypothesis HNil : P GNil.

  (** Induction on Go expressions, for proofs only. *)
  Fixpoint gexpr_ind' (e : gexpr) : P e :=
    match e with
    | GIdent p n => HIdent p n
    | GBasicLit p k v => HLit p k v
    | GParen l x r => HParen l x r (gexpr_ind' x)
    | GUnary p o x => HUnary p o x (gexpr_ind' x)
    | GBinary x p o y => HBinary x p o y (gexpr_ind' x) (gexpr_ind' y)
    | GCall f l args el r =>
        HCall f l args el r (gexpr_ind' f)
          ((fix go (l : list gexpr) : Forall P l :=
              match l with
              | [] => Forall_nil P
              | a :: l' => Forall_cons a (gexpr_ind' a) (go l')
              end) args)
    | GStar p x => HStar p x (gexpr_ind' x)
    | GSelector x p s => HSel x p s (gexpr_ind' x)
    | GOther t => HOther t
    | GNil => HNil
    end.
End GexprInd.
