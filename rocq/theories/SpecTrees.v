(** Which trees are well formed, which Go expressions a tree contains, and when
    these can be written back. *)
From Verif Require Import Text GoAst Ast SpecPrint SpecUtf8 SpecSyntax.
From Coq Require Import NArith.

Definition given (o : option gexpr) : list gexpr := match o with None => [] | Some e => [e] end.
(** The Go expressions embedded in a value, in a rule. *)
Fixpoint value_exprs (v : value) : list gexpr :=
  match v with
  | SExp s => given (s_auxint s) ++ given (s_aux s) ++ flat_map value_exprs (s_args s)
  | EVal e => [e]
  | Var _ | NilValue => []
  end.
Definition rule_exprs (r : rule) : list gexpr := value_exprs (r_match r) ++ given (r_cond r) ++ value_exprs (r_result r).

(** No source position (0 is go/token's NoPos). *)
Fixpoint unplaced (e : gexpr) : Prop :=
  match e with
  | GIdent p _ | GBasicLit p _ _ => p = 0%N
  | GParen p x q => p = 0%N /\ unplaced x /\ q = 0%N
  | GUnary p _ x | GStar p x | GSelector x p _ => p = 0%N /\ unplaced x
  | GBinary x p _ y => unplaced x /\ p = 0%N /\ unplaced y
  | GCall f p args el q => unplaced f /\ p = 0%N /\ fold_right (fun a P => unplaced a /\ P) True args /\ el = 0%N /\ q = 0%N
  | GOther _ | GNil => True
  end.

(** Lexically well-formed values and rules. *)
Fixpoint lex_value (v : value) : Prop :=
  match v with
  | SExp s => (s_binding s = [] \/ ident (s_binding s)) /\ op_wf (s_op s) /\ (~ In ">"%char (s_type s) /\ utf8 (s_type s)) /\
              fold_right (fun a P => lex_value a /\ P) True (s_args s)
  | EVal _ => True
  | Var x => ident x \/ x = str "_"
  | NilValue => False
  end.
Definition lex_rule (r : rule) : Prop :=
  lex_value (r_match r) /\ (Forall (fun c => ~ block_stop c) (r_block r) /\ utf8 (r_block r)) /\ lex_value (r_result r).

Section Back.
  Variable gp : text -> res gexpr.
  (** The expression can be printed and its text stands for it again: between
      brackets closed by [close], as a value, as a condition. *)
  Definition prints (e : gexpr) : Prop := go_bad e = [] /\ utf8 (go_text e).
  Definition back_aux (close : ascii) (e : gexpr) : Prop :=
    prints e /\ go_text e <> [] /\ ~ In close (go_text e) /\ reads gp (go_text e) e.
  Definition back_value (e : gexpr) : Prop := prints e /\ expr_form gp (go_text e) (EVal e).
  Definition back_cond (e : gexpr) : Prop :=
    prints e /\ (exists c t, go_text e = c :: t /\ ~ blank c /\ c <> "/"%char) /\
    (forall x y, go_text e = x ++ str "=>" ++ y -> x = []) /\
    reads_cond gp (go_text e) e.

  Fixpoint go_value (v : value) : Prop :=
    match v with
    | SExp s => Forall (back_aux "]") (given (s_auxint s)) /\ Forall (back_aux "}") (given (s_aux s)) /\
                fold_right (fun a P => go_value a /\ P) True (s_args s)
    | EVal e => back_value e
    | Var _ | NilValue => True
    end.
  Definition go_rule (r : rule) : Prop := go_value (r_match r) /\ Forall back_cond (given (r_cond r)) /\ go_value (r_result r).
End Back.
