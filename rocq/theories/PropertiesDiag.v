(** C61: what a failed expansion says, for every tree a caller can hand over
    (not only parsed ones).  Vocabulary: SpecDiag.v, SpecExpand.v. *)
From Verif Require Import Text GoAst Ast Expand SpecExpand SpecDiag DiagFacts.
From Coq Require Import Arith Lia.
Open Scope list_scope.

(** The message names a fault of the first rule that cannot be expanded. *)
Theorem C61_message_names_a_fault :
  forall f f' e, ExpandAlternates f = Ok (f', Some e) ->
    exists pre r post, f_rules f = pre ++ r :: post /\
      Forall (fun r => proper_rule r /\ uniform (rule_groups r)) pre /\ explains r e.
Proof. exact expand_diag. Qed.
Print Assumptions C61_message_names_a_fault.

(** The only run-time panic of an expansion. *)
Theorem C61_only_panic :
  forall f m, ExpandAlternates f = Panic m -> m = msg_panic.
Proof. exact expand_panic_msg. Qed.
Print Assumptions C61_only_panic.

(** Every message occurs. *)
Definition of_op (o : op) : file :=
  mkFile [mkRule (SExp (mkSExpr [] (Opcode (str "Neg")) [] None None
                   [Var (str "x"); SExp (mkSExpr [] o [] None None [] false false)] false false))
                 None [] (Var (str "x"))].
Definition of_arg (v : value) : file :=
  mkFile [mkRule (SExp (mkSExpr [] (Opcode (str "Neg")) [] None None [Var (str "x"); v] false false))
                 None [] (Var (str "x"))].

Example C61_example :
  ExpandAlternates (of_op NilOp) = Ok (of_op NilOp, Some msg_nil) /\
  ExpandAlternates (of_op (OpcodeParts [])) = Ok (of_op (OpcodeParts []), Some msg_empty) /\
  (let o := OpcodeParts [PCode (str "Add"); PAlt [str "8"; str "16"]; PNilPart] in
   ExpandAlternates (of_op o) = Ok (of_op o, Some msg_nil)) /\
  (let o := OpcodeParts [PCode (str "Add"); PAlt []] in
   ExpandAlternates (of_op o) = Ok (of_op o, Some msg_counts)) /\
  (let o := OpcodeParts [PCode (str "Add"); PAlt [str "8"]] in
   ExpandAlternates (of_op o) = Ok (of_op o, Some msg_single)) /\
  (let o := OpcodeParts [PAlt [str "A"; str "B"]; PAlt [str "8"]; PAlt [str "16"; str "32"; str "64"]] in
   ExpandAlternates (of_op o) = Ok (of_op o, Some (str "incompatible alternative counts 2 and 3"))) /\
  ExpandAlternates (of_arg NilValue) = Ok (of_arg NilValue, Some msg_nil) /\
  (let o := OpcodeParts [PAlt [str "A"]; PAlt [str "8"; str "16"]] in
   ExpandAlternates (of_op o) = Panic msg_panic).
Proof. repeat split; reflexivity. Qed.
