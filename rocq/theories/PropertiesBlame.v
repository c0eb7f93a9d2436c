(** C62: what a failed script generation says: the first fault of the rule in
    reading order, and the way to it.  Vocabulary: SpecSmtErr.v. *)
From Verif Require Import Text GoAst Ast SpecPrint Smt SpecSmt SpecSmtErr SmtErrFacts.
From Coq Require Import Arith Lia.
Open Scope list_scope.

Theorem C62_message_is_first_fault :
  forall r e, Generate r = Err e <-> rule_blame r e.
Proof. exact generate_err_iff. Qed.
Print Assumptions C62_message_is_first_fault.

(** So there is never a choice of messages. *)
Theorem C62_one_message :
  forall r e e', rule_blame r e -> rule_blame r e' -> e = e'.
Proof. intros r e e' H H'. apply generate_err_iff in H, H'. congruence. Qed.
Print Assumptions C62_one_message.

Definition op1 (c : string) (args : list value) : value :=
  SExp (mkSExpr [] (Opcode (str c)) [] None None args false false).
Definition v (x : string) : value := Var (str x).

(** (Add32 x (Neg32 (AndB y x))) : y is not met before the fault, Neg32's argument
    should be an integer. *)
Definition ex_deep : rule := mkRule (op1 "Add32" [v "x"; op1 "Neg32" [op1 "AndB" [v "y"; v "x"]]]) None [] (v "x").
Example C62_example :
  rule_blame ex_deep
    (str "Add32: evaluate argument 1: Neg32: evaluate argument 0: AndB: invalid return type int32") /\
  rule_blame (mkRule (op1 "AndB" [v "x"; op1 "Not" [v "x"]]) None [] (op1 "EqB" [v "x"]))
    (str "EqB: expect 2 arguments got 1") /\
  rule_blame (mkRule (op1 "Add8" [v "x"; v "y"]) None [] (op1 "Add8" [v "y"; op1 "Neg16" [v "x"]]))
    (str "Add8: evaluate argument 1: Neg16: invalid return type int8") /\
  rule_blame (mkRule (v "x") None [] (v "x")) (str "declare x: cannot deduce type") /\
  rule_blame (mkRule (op1 "Neg8" [v "x"]) None (str "b") (v "x")) (str "not supported: rule blocks").
Proof. repeat split; apply generate_err_iff; reflexivity. Qed.
