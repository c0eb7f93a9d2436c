(** The parser and its grammar file (C49).  Vocabulary: PegFile.v transcribes
    parse/rules.peg rule by rule; SpecPeg.v says what a grammar means. *)
From Verif Require Import Text GoAst Ast Utf8 GoExpr Peg Grammar Parse GoParser SpecUtf8 PegFile SpecPeg PegRules ParseFacts PropertiesParse.
From Coq Require Import NArith.

(** * C49: the parser implements rules.peg *)
Theorem C49_parser_implements_the_grammar :
  forall gp fn data f,
    Parse gp fn data = Ok f <->
    utf8 data /\ sem (peg_run gp) peg_grammar (PRef (str "File")) [] data (Good (VFile f) [] []).
Proof.
  intros gp fn data f. rewrite parse_ok. apply and_iff_compat_l.
  rewrite <- rule_matches by (unfold kept; cbn; tauto). split.
  - intros [en H]. eapply sem_ref; [reflexivity|exact H].
  - intros H. inversion H as [| | | | | | | | | | | | |n b en t v en' r G S| | | | | | |]; subst. inversion G; subst. eexists; exact S.
Qed.
Print Assumptions C49_parser_implements_the_grammar.

(** Whatever the grammar file does not derive is an error, and nothing else is. *)
Theorem C49_everything_else_is_an_error :
  forall gp fn data,
    (exists m, Parse gp fn data = Err m) <->
    ~ (utf8 data /\ exists f, sem (peg_run gp) peg_grammar (PRef (str "File")) [] data (Good (VFile f) [] [])).
Proof.
  intros gp fn data. split.
  - intros [m H] [U [f S]]. assert (E : Parse gp fn data = Ok f) by (apply C49_parser_implements_the_grammar; auto). congruence.
  - intros N. destruct (C01_parse_total gp fn data) as [[f H]|(m & H & _)]; [|eauto].
    apply C49_parser_implements_the_grammar in H. destruct N. destruct H as [U S]. eauto.
Qed.
Print Assumptions C49_everything_else_is_an_error.

(** Rule by rule: every rule that the generated table still has, at every place in
    every text, matches as much as the rule of that name in the file, with the same value. *)
Theorem C49_rule_by_rule :
  forall gp name b t o, the_grammar name = Some b ->
    sem (run_action gp) the_grammar (PRef name) [] t o <-> sem (peg_run gp) peg_grammar (PRef name) [] t o.
Proof.
  intros gp name b t o G. apply rule_matches. unfold the_grammar in G. unfold kept.
  destruct (find _ _) as [[k e]|] eqn:F; [|discriminate]. apply find_some in F. destruct F as [I E]. apply text_eqb_eq in E. cbn in E. subst k.
  apply in_map_iff. exists (name, e). auto.
Qed.
Print Assumptions C49_rule_by_rule.

(** The witness source of C01-C16, two rules with every part: the grammar file derives it. *)
Example C49_example : sem (peg_run ParseExpr) peg_grammar (PRef (str "File")) [] ex_source (Good (VFile (mkFile ex_rules)) [] []).
Proof. apply (C49_parser_implements_the_grammar ParseExpr (str "t.rules")), ex_parse. Qed.
(** A name may not start with a capital letter. *)
Example C49_example_bad : forall f, ~ sem (peg_run ParseExpr) peg_grammar (PRef (str "File")) [] (str "(A X) => x") (Good (VFile f) [] []).
Proof.
  intros f S. assert (E : Parse ParseExpr [] (str "(A X) => x") = Ok f).
  { apply C49_parser_implements_the_grammar. split; [|exact S].
    match goal with |- utf8 ?t => let t' := eval cbv in t in change (utf8 t') end.
    repeat (match goal with |- utf8 (?c :: ?t) => apply (utf8_cons [c] t) end; [apply utf8_1; split; vm_compute; discriminate|]). apply utf8_nil. }
  vm_compute in E. discriminate.
Qed.
