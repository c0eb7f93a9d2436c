(** Rules whose Go expressions can be written and read again, said of the trees
    alone: no function of the parser or printer occurs here. *)
From Verif Require Import Text GoAst Ast SpecUtf8 SpecSyntax SpecTrees SpecGo.
From Coq Require Import NArith.

(** The texts of the literals in an expression. *)
Fixpoint literals (e : gexpr) : list text :=
  match e with
  | GBasicLit _ _ v => [v]
  | GIdent _ _ | GOther _ | GNil => []
  | GParen _ x _ | GUnary _ _ x | GStar _ x | GSelector x _ _ => literals x
  | GBinary x _ _ y => literals x ++ literals y
  | GCall f _ args _ _ => literals f ++ flat_map literals args
  end.
Definition has_arrow (t : text) : Prop := exists x y, t = x ++ str "=>" ++ y.

(** A tree that groups as its text does, without positions; the literals satisfy [P]. *)
Definition placed (P : text -> Prop) (e : gexpr) : Prop :=
  ordered e /\ unplaced e /\ Forall (fun v => utf8 v /\ P v) (literals e).

(** Calls of named functions on variables, placeholders and such calls. *)
Fixpoint call_arg (e : gexpr) : Prop :=
  match e with
  | GIdent _ x => ident x \/ x = str "_"
  | GCall (GIdent _ f) _ args _ _ => ident f /\ args <> [] /\ fold_right (fun a P => call_arg a /\ P) True args
  | _ => False
  end.
Definition call_value (e : gexpr) : Prop :=
  call_arg e /\ match e with GCall _ _ _ _ _ => True | _ => False end.

(** An auxint is written between square brackets, an aux between braces, a value as a
    call, a condition on one line before the arrow. *)
Fixpoint placed_value (v : value) : Prop :=
  match v with
  | SExp s => Forall (placed (fun v => ~ In "]"%char v)) (given (s_auxint s)) /\
              Forall (placed (fun v => ~ In "}"%char v)) (given (s_aux s)) /\
              fold_right (fun a P => placed_value a /\ P) True (s_args s)
  | EVal e => placed (fun _ => True) e /\ call_value e
  | Var _ | NilValue => True
  end.
Definition placed_rule (r : rule) : Prop :=
  placed_value (r_match r) /\ Forall (placed (fun v => ~ In nl v /\ ~ has_arrow v)) (given (r_cond r)) /\
  placed_value (r_result r).
(** ... and no two tokens of an expression run together. *)
Definition writable_rule (r : rule) : Prop := placed_rule r /\ Forall smooth (rule_exprs r).
