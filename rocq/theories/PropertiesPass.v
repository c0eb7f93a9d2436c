(** Passes composed with parsing and printing (C50). *)
From Verif Require Import Text GoAst Ast Utf8 GoExpr Parse Printer Expand SpecPrint SpecUtf8 SpecSyntax SpecTrees SpecGo SpecBack SpecExpand
  SynShape PropertiesParse GoBack PropertiesBack ExpandParse GoParser.
From Coq Require Import NArith Arith Bool Lia.
Open Scope nat_scope.

(** * C50: an expanded file can be written and read back *)
Theorem C50_expanded_reads_back :
  forall gp fn f f', Forall lex_rule (f_rules f) -> Forall (go_rule gp) (f_rules f) -> ExpandAlternates f = Ok (f', None) ->
    exists t, Bytes (NFile f') = Ok t /\ Parse gp fn t = Ok f'.
Proof.
  intros gp fn f [rs] L G E. apply C03_print_parse; [exact (expand_lex _ _ E L)|exact (expand_go _ _ _ E G)].
Qed.
Print Assumptions C50_expanded_reads_back.

(** Parsed files, with the reference Go parser: the same provisos as for C04. *)
Theorem C50_parsed_expanded_reads_back :
  forall fn data f f', Parse ParseExpr fn data = Ok f -> ~ In cr data ->
    (forall r e, In r (f_rules f) -> In e (rule_exprs r) -> smooth e) ->
    ExpandAlternates f = Ok (f', None) ->
    exists t, Bytes (NFile f') = Ok t /\ forall fn', Parse ParseExpr fn' t = Ok f'.
Proof.
  intros fn data f f' P N S E.
  assert (W : Forall writable_rule (f_rules f)) by (apply (parsed_writable fn data f P); [apply Forall_forall; intros r I; apply Forall_forall; eauto|right; exact N]).
  assert (L : Forall lex_rule (f_rules f)) by (eapply Forall_impl; [|exact (parse_shape _ _ _ _ P)]; cbn; tauto).
  destruct f' as [rs]. destruct (C03_trees fn rs (expand_lex _ _ E L) (expand_writable _ _ E W)) as (t & B & _).
  exists t. split; [exact B|]. intros fn'. destruct (C03_trees fn' rs (expand_lex _ _ E L) (expand_writable _ _ E W)) as (t' & B' & P'). congruence.
Qed.
Print Assumptions C50_parsed_expanded_reads_back.

(** Writing and reading the file first changes nothing: the two passes commute. *)
Theorem C50_print_parse_expand :
  forall gp fn f, Forall lex_rule (f_rules f) -> Forall (go_rule gp) (f_rules f) ->
    exists t g, Bytes (NFile f) = Ok t /\ Parse gp fn t = Ok g /\ ExpandAlternates g = ExpandAlternates f.
Proof.
  intros gp fn [rs] L G. destruct (C03_print_parse gp fn rs L G) as (t & B & P). exists t, (mkFile rs). auto.
Qed.
Print Assumptions C50_print_parse_expand.

Example C50_example : exists f f' t, Parse ParseExpr (str "x.rules") ex_data = Ok f /\ ~ In cr ex_data /\
  (forall r e, In r (f_rules f) -> In e (rule_exprs r) -> smooth e) /\ ExpandAlternates f = Ok (f', None) /\ List.length (f_rules f') = 2 /\
  Bytes (NFile f') = Ok t /\ Parse ParseExpr (str "y.rules") t = Ok f'.
Proof.
  destruct C04_example as (f & P & N & S & B). exists f.
  assert (E : exists f', ExpandAlternates f = Ok (f', None) /\ List.length (f_rules f') = 2).
  { vm_compute in P. inversion P; subst f. eexists. split; vm_compute; reflexivity. }
  destruct E as (f' & E & Le). destruct (C50_parsed_expanded_reads_back _ _ _ _ P N S E) as (t & B' & R).
  exists f', t. repeat split; auto.
Qed.
