(** C58, C59: ast.Fprint, ast.Print and ast.Dump. *)
From Verif Require Import Text GoAst Ast Utf8 Quote Parse GoParser Dump SpecPrint SpecSyntax SpecTrees SpecDump QuoteFacts DumpFacts DumpInj QuoteSpell PropertiesParse.
From Coq Require Import Arith NArith Bool Lia.
Open Scope nat_scope.
Open Scope list_scope.

(** C58.  [wide_print] is the table of printable characters beyond ASCII and [other] prints
    the Go expressions that parsing does not accept: the theorems hold whatever they are. *)

(** The layout of a dump. *)
Theorem C58_layout :
  forall wide_print other n, plain_node n -> Dump wide_print other n = Ok (dump_page wide_print n).
Proof. exact Dump_page. Qed.
Print Assumptions C58_layout.

(** For every node, Dump succeeds; and every writer is given the same text piece by piece,
    until its first error, which is returned. *)
Theorem C58_writer :
  forall wide_print other n, exists chunks,
    Dump wide_print other n = Ok (List.concat chunks) /\
    forall W (write : W -> text -> W * option text) w, Fprint write wide_print other w n = feed write chunks w.
Proof. exact Dump_feed. Qed.
Print Assumptions C58_writer.

(** Strings are shown as Go string literals, on one line. *)
Theorem C58_strings :
  forall wide_print s, ~ In nl (Quote wide_print s) /\ exists t, Quote wide_print s = dquote :: t ++ [dquote] /\ spells t s.
Proof. intros wp s. split; [apply Quote_nl|apply Quote_spells]. Qed.
Print Assumptions C58_strings.
Example C58_strings_example : Quote (fun _ => false) (str "a""\" ++ nl :: map ascii_of_N [195; 169; 255; 127]%N) = str """a\""\\\n\u00e9\xff\u007f""".
Proof. reflexivity. Qed.

Definition dump_src : text := str "(Add(8|16) <t> [c] {""a\b""} x) && a >= 1 => @blk y".
Fixpoint with_newlines (ls : list string) : text := match ls with [] => [] | l :: ls => str l ++ nl :: with_newlines ls end.
Example C58_example : exists f, Parse ParseExpr (str "x") dump_src = Ok f /\ plain_node (NFile f) /\
  Dump (fun _ => true) (fun _ => []) (NFile f) = Ok (with_newlines [
"     0  *ast.File {";
"     1  .  Rules: []*ast.Rule (len = 1) {";
"     2  .  .  0: *ast.Rule {";
"     3  .  .  .  Match: *ast.SExpr {";
"     4  .  .  .  .  Binding: ";
"     5  .  .  .  .  Op: ast.OpcodeParts (len = 2) {";
"     6  .  .  .  .  .  0: Add";
"     7  .  .  .  .  .  1: ast.OpcodeAlt (len = 2) {";
"     8  .  .  .  .  .  .  0: 8";
"     9  .  .  .  .  .  .  1: 16";
"    10  .  .  .  .  .  }";
"    11  .  .  .  .  }";
"    12  .  .  .  .  Type: t";
"    13  .  .  .  .  AuxInt: *ast.Expr {";
"    14  .  .  .  .  .  Expr: *ast.Ident {";
"    15  .  .  .  .  .  .  NamePos: 0";
"    16  .  .  .  .  .  .  Name: ""c""";
"    17  .  .  .  .  .  }";
"    18  .  .  .  .  }";
"    19  .  .  .  .  Aux: *ast.Expr {";
"    20  .  .  .  .  .  Expr: *ast.BasicLit {";
"    21  .  .  .  .  .  .  ValuePos: 0";
"    22  .  .  .  .  .  .  Kind: STRING";
"    23  .  .  .  .  .  .  Value: ""\""a\\b\""""";
"    24  .  .  .  .  .  }";
"    25  .  .  .  .  }";
"    26  .  .  .  .  Args: []ast.Value (len = 1) {";
"    27  .  .  .  .  .  0: x";
"    28  .  .  .  .  }";
"    29  .  .  .  .  Ellipsis: false";
"    30  .  .  .  .  Trailing: false";
"    31  .  .  .  }";
"    32  .  .  .  Condition: *ast.Expr {";
"    33  .  .  .  .  Expr: *ast.BinaryExpr {";
"    34  .  .  .  .  .  X: *ast.Ident {";
"    35  .  .  .  .  .  .  NamePos: 0";
"    36  .  .  .  .  .  .  Name: ""a""";
"    37  .  .  .  .  .  }";
"    38  .  .  .  .  .  OpPos: 0";
"    39  .  .  .  .  .  Op: >=";
"    40  .  .  .  .  .  Y: *ast.BasicLit {";
"    41  .  .  .  .  .  .  ValuePos: 0";
"    42  .  .  .  .  .  .  Kind: INT";
"    43  .  .  .  .  .  .  Value: ""1""";
"    44  .  .  .  .  .  }";
"    45  .  .  .  .  }";
"    46  .  .  .  }";
"    47  .  .  .  Block: ""blk""";
"    48  .  .  .  Result: y";
"    49  .  .  }";
"    50  .  }";
"    51  }"]%string).
Proof.
  eexists. split; [vm_compute; reflexivity|]. split; [|vm_compute; reflexivity].
  cbn. repeat constructor.
Qed.
(** A writer that accepts 20 bytes in all. *)
Example C58_writer_example : forall f, Parse ParseExpr (str "x") dump_src = Ok f ->
  Fprint (fun w (c : text) => if List.length (w ++ c) <=? 20 then (w ++ c, None) else (firstn 20 (w ++ c), Some (str "full")))
    (fun _ => true) (fun _ => []) [] (NFile f) = (str "     0  *ast.File {" ++ [nl], Some (str "full")).
Proof. intros f P. vm_compute in P. injection P as <-. vm_compute. reflexivity. Qed.

(** C59: different trees have different dumps. *)
Theorem C59_dump_injective :
  forall wide_print other n n' t, dump_node n -> dump_node n' ->
    Dump wide_print other n = Ok t -> Dump wide_print other n' = Ok t -> n = n'.
Proof.
  intros wp other n n' t D D' E E'. rewrite C58_layout in E, E' by (apply dump_plain; assumption).
  apply (dump_page_inj wp); [assumption..|]. congruence.
Qed.
Print Assumptions C59_dump_injective.

Lemma word_char_facts c : word_char c -> c <> nl /\ c <> "{"%char /\ c <> "}"%char.
Proof. intros H. repeat split; intros ->; unfold word_char in H; cbn in H; intuition discriminate. Qed.
Lemma chars_tidy t : Forall word_char t -> tidy t.
Proof.
  intros F. rewrite Forall_forall in F. destruct t as [|b c]; [repeat split; [intros []|discriminate|discriminate]|].
  assert (L : word_char (last (b :: c) sp)) by (apply F, last_in; discriminate). apply word_char_facts in L.
  split; [|tauto]. intros I. apply F, word_char_facts in I. tauto.
Qed.
Lemma ident_tidy t : ident t -> tidy t.
Proof. intros (c & t' & -> & L & F). apply chars_tidy. constructor; [|exact F]. right. left. exact L. Qed.
Lemma op_dump o : op_wf o -> dump_op o.
Proof.
  destruct o as [c|ps|]; cbn; [intros [_ F]; apply chars_tidy, F| |tauto]. intros (N & F & _). split; [exact N|].
  eapply Forall_impl; [|exact F]. intros [c|a|]; cbn; [intros [_ G]; apply chars_tidy, G| |tauto]. intros [L G]. split; [intros ->; cbn in L; lia|].
  eapply Forall_impl; [|exact G]. intros c [_ K]. apply chars_tidy, K.
Qed.
Lemma lex_dump v : lex_value v -> one_line_types v -> Forall supported (value_exprs v) -> dump_value v.
Proof.
  induction v using value_ind'; cbn [lex_value one_line_types value_exprs]; intros L O S.
  - destruct L as (L1 & L2 & _ & L3), O as [O1 O2]. apply Forall_app in S. destruct S as [S1 S]. apply Forall_app in S. destruct S as [S2 S3]. constructor.
    + destruct L1 as [->|L1]; [apply chars_tidy; constructor|apply ident_tidy, L1].
    + apply op_dump, L2.
    + exact O1.
    + destruct (s_auxint s); [|exact I]. inversion S1; subst. assumption.
    + destruct (s_aux s); [|exact I]. inversion S2; subst. assumption.
    + clear -H L3 O2 S3. induction H as [|a l Ha H IH]; [constructor|]. cbn in *. apply Forall_app in S3. constructor; [apply Ha|apply IH]; tauto.
  - inversion S; subst. constructor. assumption.
  - constructor. destruct L as [L| ->]; [apply ident_tidy, L|]. apply chars_tidy. repeat constructor.
  - contradiction.
Qed.

(** In particular, if no type annotation has a newline in it, two parsed files with the
    same dump are the same file. *)
Theorem C59_parsed_files :
  forall wide_print other gp gp' fn fn' data data' f f' t,
    Parse gp fn data = Ok f -> Parse gp' fn' data' = Ok f' ->
    (forall r, In r (f_rules f) \/ In r (f_rules f') -> one_line_types (r_match r) /\ one_line_types (r_result r)) ->
    Dump wide_print other (NFile f) = Ok t -> Dump wide_print other (NFile f') = Ok t -> f = f'.
Proof.
  intros wp other gp gp' fn fn' data data' f f' t P P' O E E'.
  assert (X : forall gp fn data f, Parse gp fn data = Ok f -> (forall r, In r (f_rules f) -> one_line_types (r_match r) /\ one_line_types (r_result r)) -> dump_node (NFile f)).
  { clear. intros gp fn data f P O. apply C08_well_formed in P. cbn [dump_node]. rewrite Forall_forall in *. intros r I. destruct (P r I) as [(L1 & _ & L2) S].
    destruct (O r I) as [O1 O2]. unfold rule_exprs in S. apply Forall_app in S. destruct S as [S1 S]. apply Forall_app in S. destruct S as [S2 S3].
    split; [apply lex_dump; assumption|]. split; [|apply lex_dump; assumption]. destruct (r_cond r); [|exact Logic.I]. inversion S2; subst. assumption. }
  assert (N : NFile f = NFile f') by (eapply C59_dump_injective; [eapply X; [exact P|auto]|eapply X; [exact P'|auto]|exact E|exact E']).
  congruence.
Qed.
Print Assumptions C59_parsed_files.

Example C59_example : exists f f', Parse ParseExpr [] (str "(A <t> [1] x) => x") = Ok f /\ Parse ParseExpr [] (str "(A <t> {1} x) => x") = Ok f' /\
  dump_node (NFile f) /\ dump_node (NFile f') /\ f <> f'.
Proof.
  do 2 eexists. split; [vm_compute; reflexivity|]. split; [vm_compute; reflexivity|].
  assert (T : forall c, tidy [c] \/ c = nl \/ c = "{"%char \/ c = "}"%char).
  { intros c. destruct (ascii_dec c nl); [tauto|]. destruct (ascii_dec c "{"); [tauto|]. destruct (ascii_dec c "}"); [tauto|].
    left. repeat split; cbn; [intros [?|[]]; congruence|assumption..]. }
  assert (T0 : tidy []) by (repeat split; cbn; [tauto|discriminate|discriminate]).
  split; [|split; [|discriminate]]; cbn [dump_node f_rules]; constructor; try constructor; repeat split; cbn;
    try (intuition discriminate); try exact I; repeat (constructor; cbn); try exact T0; try (intuition discriminate);
    match goal with |- tidy [?c] => destruct (T c) as [?|[?|[?|?]]]; [assumption|discriminate..] end.
Qed.

(** With a newline in a type it is not so: the type can imitate the fields after it. *)
Theorem C59_multiline_types_refuted :
  exists data data' f f' t, Parse ParseExpr [] data = Ok f /\ Parse ParseExpr [] data' = Ok f' /\ f <> f' /\
    Dump (fun _ => true) (fun _ => []) (NFile f) = Ok t /\ Dump (fun _ => true) (fun _ => []) (NFile f') = Ok t.
Proof.
  exists (str "(A <t> [1]) => x"),
    (str "(A <t" ++ nl :: str "AuxInt: *ast.Expr {" ++ nl :: str ".  Expr: *ast.BasicLit {" ++ nl :: str ".  .  ValuePos: 0" ++ nl ::
     str ".  .  Kind: INT" ++ nl :: str ".  .  Value: ""1""" ++ nl :: str ".  }" ++ nl :: str "}>) => x").
  do 3 eexists. split; [vm_compute; reflexivity|]. split; [vm_compute; reflexivity|]. split; [discriminate|]. split; vm_compute; reflexivity.
Qed.
Print Assumptions C59_multiline_types_refuted.
