(** Go expression trees that are the tree of a text, and those whose printed text is
    read as its tokens.  Said of the trees alone, after the language specification
    (sections Operators and Operator precedence; for names and literals SpecWords.v). *)
From Verif Require Import Text GoAst SpecWords.
From Coq Require Import NArith.

(** The binary operators have five precedences; other operators have none, here 0. *)
Definition precedence (o : gotok) : nat :=
  match o with
  | LOR => 1
  | LAND => 2
  | EQL | NEQ | LSS | LEQ | GTR | GEQ => 3
  | ADD | SUB | OR | XOR => 4
  | MUL | QUO | REM | SHL | SHR | AND | AND_NOT => 5
  | _ => 0
  end.

(** How tightly a tree holds together: binary operators by precedence 1 to 5, then
    prefix operators, then everything else. *)
Definition level (e : gexpr) : nat :=
  match e with GBinary _ _ o _ => precedence o | GUnary _ _ _ | GStar _ _ => 6 | _ => 7 end.
Definition infix (o : gotok) : Prop := 1 <= precedence o.
Definition prefix_op (o : gotok) : Prop := In o [ADD; SUB; NOT; XOR; AND; ARROW].
(** Trees that need no parentheses beyond those they have: operands hold together at
    least as tightly as the operator, on the right more tightly. *)
Fixpoint ordered (e : gexpr) : Prop :=
  match e with
  | GIdent _ x => go_identifier x
  | GBasicLit _ k v => go_lit k v
  | GParen _ x _ => ordered x
  | GUnary _ o x => prefix_op o /\ 6 <= level x /\ ordered x
  | GStar _ x => 6 <= level x /\ ordered x
  | GBinary x _ o y => infix o /\ precedence o <= level x /\ precedence o < level y /\ ordered x /\ ordered y
  | GCall f _ args _ _ => level f = 7 /\ ordered f /\ fold_right (fun a P => ordered a /\ P) True args
  | GSelector x _ s => level x = 7 /\ go_identifier s /\ ordered x
  | GOther _ | GNil => False
  end.

(** The operator a text of the expression starts with, if any. *)
Fixpoint first_op (e : gexpr) : option gotok :=
  match e with
  | GUnary _ o _ => Some o
  | GStar _ _ => Some MUL
  | GBinary x _ _ _ | GCall x _ _ _ _ | GSelector x _ _ => first_op x
  | _ => None
  end.
(** Operators that, written without a blank between them, are read as something else:
    ++ -- && &^ and the start of a comment. *)
Definition merges (o : gotok) (e : gexpr) : Prop :=
  match o, first_op e with
  | ADD, Some ADD | SUB, Some SUB | AND, Some AND | AND, Some XOR | QUO, Some MUL => True
  | _, _ => False
  end.
(** Operators that are printed with blanks around them: comparisons and && and ||. *)
Definition apart (o : gotok) : Prop := precedence o <= 3.
(** A point after an integer continues it: 1.x is read as the number 1. and the name x.  Other numbers end before a point. *)
Definition number (e : gexpr) : Prop :=
  match e with GBasicLit _ LInt _ => True | _ => False end.
(** Nothing in the printed text runs together. *)
Fixpoint smooth (e : gexpr) : Prop :=
  match e with
  | GIdent _ _ | GBasicLit _ _ _ | GOther _ | GNil => True
  | GParen _ x _ | GStar _ x => smooth x
  | GUnary _ o x => ~ merges o x /\ smooth x
  | GBinary x _ o y => (apart o \/ ~ merges o y) /\ smooth x /\ smooth y
  | GCall f _ args _ _ => smooth f /\ fold_right (fun a P => smooth a /\ P) True args
  | GSelector x _ _ => ~ number x /\ smooth x
  end.
