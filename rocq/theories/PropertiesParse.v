(** Properties of package parse (C01-C16, C20, C26).  Vocabulary: SpecSyntax.v (written
    forms), SpecSource.v, SpecTrees.v (well-formed trees), SpecUtf8.v, SpecTrim.v, SpecErr.v.
    [gp] is any behaviour of go/parser.ParseExpr, including panics; [ParseExpr]
    is the reference model of it, used for witnesses and refutations. *)
From Verif Require Import Text GoAst Ast Utf8 Expand Printer Parse GoParser SpecExpand SpecPrint SpecUtf8 SpecSyntax SpecSource SpecTrees SpecTrim SpecCmd SpecErr
  PrintFacts SynFile SynShape SynPrint SynExtend ParseFacts ErrFacts ParseUse SynTrim PropertiesExpand.
From Coq Require Import NArith Arith.

(** Witness source: several rules, comments, all the parts of a rule. *)
Definition ex_source : text :=
  str "// a comment" ++ [nl] ++
  str "x:(Add(8|16) [c+1] <t> y {f(a, b)} _ ...) && a == b" ++ [nl] ++ str "  && isOk(y) => @b (Neg(8|16) y ___)" ++ [nl] ++
  str "(Mul8 x) => f(x, g(_)) // the end" ++ [nl].
Definition ex_rules : list rule :=
  [ mkRule (SExp (mkSExpr (str "x") (OpcodeParts [PCode (str "Add"); PAlt [str "8"; str "16"]]) (str "t")
        (Some (GBinary (GIdent 0 (str "c")) 0 ADD (GBasicLit 0 LInt (str "1"))))
        (Some (GCall (GIdent 0 (str "f")) 0 [GIdent 0 (str "a"); GIdent 0 (str "b")] 0 0))
        [Var (str "y"); Var (str "_")] true false))
      (Some (GBinary (GBinary (GIdent 0 (str "a")) 0 EQL (GIdent 0 (str "b"))) 0 LAND (GCall (GIdent 0 (str "isOk")) 0 [GIdent 0 (str "y")] 0 0)))
      (str "b")
      (SExp (mkSExpr [] (OpcodeParts [PCode (str "Neg"); PAlt [str "8"; str "16"]]) [] None None [Var (str "y")] false true));
    mkRule (SExp (mkSExpr [] (Opcode (str "Mul8")) [] None None [Var (str "x")] false false)) None []
      (EVal (GCall (GIdent 0 (str "f")) 0 [GIdent 0 (str "x"); GCall (GIdent 0 (str "g")) 0 [GIdent 0 (str "_")] 0 0] 0 0)) ]%N.
Lemma ex_parse : Parse ParseExpr (str "t.rules") ex_source = Ok (mkFile ex_rules).
Proof. vm_compute. reflexivity. Qed.

(** * C01: parsing is total *)
Theorem C01_parse_total :
  forall gp fn data,
    (exists f, Parse gp fn data = Ok f) \/ (exists m, Parse gp fn data = Err m /\ m <> []).
Proof.
  intros gp fn data. destruct (parse_messages gp data) as [[f H]|(es & Ne & F & H)]; [left; eauto|right].
  rewrite H. eexists. split; [reflexivity|]. destruct es as [|e es]; [congruence|]. inversion F as [|? ? O _]; subst.
  destruct (plain_place data e O) as (k & l & c & dk & dl & dc & rest & _ & _ & (_ & _ & Nl & _) & _ & E). cbn [map dedupe existsb].
  rewrite E. destruct dl as [|d dl]; [congruence|]. cbn [map]. intros X.
  assert (L : forall x y, label fn (x :: y) <> []) by (intros x y; unfold label; destruct fn; discriminate).
  cbn [app] in X. destruct (map (label fn) _) in X; [exact (L _ _ X)|]. apply app_eq_nil in X. destruct X as [X _]. exact (L _ _ X).
Qed.
Print Assumptions C01_parse_total.

(** Reading fails: that error, and no file. *)
Theorem C01_reader_total :
  forall gp fn,
    (forall b, Reader gp fn (Ok b) = Parse gp fn b) /\ (forall e, Reader gp fn (Err e) = Err e) /\
    (forall s, String_ gp s = Parse gp (str "string") s).
Proof. repeat split. Qed.
Print Assumptions C01_reader_total.

Theorem C01_file_total :
  forall gp fn opened r closed, (forall m, r <> Panic m) ->
    (exists f b, File_ gp fn opened r closed = Ok f /\ opened = None /\ closed = None /\ r = Ok b /\ Parse gp fn b = Ok f) \/
    (exists m, File_ gp fn opened r closed = Err m /\
       (opened = Some m \/ opened = None /\
          (closed = Some m \/ closed = None /\ (r = Err m \/ exists b, r = Ok b /\ Parse gp fn b = Err m)))).
Proof.
  intros gp fn opened r closed Np. unfold File_. destruct opened as [e|]; [right; exists e; auto|].
  assert (T : forall b, (exists f, Parse gp fn b = Ok f) \/ (exists m, Parse gp fn b = Err m)) by (intros b; apply parse_total).
  destruct closed as [e|].
  - right. exists e. split; [|auto]. destruct r as [b|e'|m]; cbn [Reader]; [|reflexivity|destruct (Np m eq_refl)].
    destruct (T b) as [[f H]|[m H]]; rewrite H; reflexivity.
  - destruct r as [b|e'|m]; cbn [Reader]; [|right; exists e'; auto 10|destruct (Np m eq_refl)].
    destruct (T b) as [[f H]|[m H]]; rewrite H; [left; exists f, b; repeat split; auto|right; exists m]. split; [reflexivity|]. right. split; [reflexivity|]. right. split; [reflexivity|]. right. exists b. auto.
Qed.
Print Assumptions C01_file_total.

(** Even a Go parser that always panics does no harm. *)
Example C01_example :
  exists m, Parse (fun _ => Panic (str "boom")) [] (str "(A [x]) => y") = Err m /\
            Parse (fun _ => Panic (str "boom")) [] (str "(A x) => y") =
              Ok (mkFile [mkRule (SExp (mkSExpr [] (Opcode (str "A")) [] None None [Var (str "x")] false false)) None [] (Var (str "y"))]).
Proof. eexists. split; vm_compute; reflexivity. Qed.

(** * C02: the accepted language *)
Theorem C02_exact_language :
  forall gp fn data f, Parse gp fn data = Ok f <-> utf8 data /\ source_form gp data (f_rules f).
Proof. exact parse_source. Qed.
Print Assumptions C02_exact_language.
(** So a text is the written form of at most one list of rules. *)
Theorem C02_unambiguous :
  forall gp data rs rs', utf8 data -> source_form gp data rs -> source_form gp data rs' -> rs = rs'.
Proof.
  intros gp data rs rs' U H H'. assert (E : Parse gp [] data = Ok (mkFile rs)) by (apply parse_source; auto).
  assert (E' : Parse gp [] data = Ok (mkFile rs')) by (apply parse_source; auto). congruence.
Qed.
Print Assumptions C02_unambiguous.

Example C02_example :
  source_form ParseExpr ex_source ex_rules /\
  (forall rs, ~ source_form ParseExpr (str "x => ") rs) /\
  (forall rs, ~ source_form ParseExpr (str "(Op x") rs).
Proof.
  split; [apply (proj1 (parse_source _ _ _ _) ex_parse)|].
  assert (N : forall t m rs, utf8 t -> Parse ParseExpr [] t = Err m -> ~ source_form ParseExpr t rs).
  { intros t m rs U E S. assert (X : Parse ParseExpr [] t = Ok (mkFile rs)) by (apply parse_source; auto). congruence. }
  split; intros rs; eapply N; try (vm_compute; reflexivity); apply utf8_ascii; repeat constructor.
Qed.
(** The written forms, derived by hand for a small source. *)
Example C02_by_hand : source_form ParseExpr (str "x=>y") [mkRule (Var (str "x")) None [] (Var (str "y"))].
Proof.
  apply (source_cons ParseExpr [] (str "x=>y") [] []); [constructor|constructor| |constructor].
  apply (rule_intro ParseExpr [] (str "x") (Var (str "x")) [] None [] [] [] [] [] (str "y") (Var (str "y"))).
  - apply value_expr. apply expr_var. exists "x"%char, []. repeat split. constructor.
  - constructor.
  - constructor.
  - constructor.
  - constructor.
  - constructor.
  - apply value_expr. apply expr_var. exists "y"%char, []. repeat split. constructor.
  - apply value_end_nil.
Qed.

(** * C03, C04: printing and parsing *)
Theorem C03_print_parse :
  forall gp fn rs, Forall lex_rule rs -> Forall (go_rule gp) rs ->
    exists t, Bytes (NFile (mkFile rs)) = Ok t /\ Parse gp fn t = Ok (mkFile rs).
Proof. intros gp fn rs. apply print_parse. Qed.
Print Assumptions C03_print_parse.

Theorem C04_reprint_stable :
  forall gp fn data f, Parse gp fn data = Ok f -> Forall (go_rule gp) (f_rules f) ->
    exists t, Bytes (NFile f) = Ok t /\ (forall fn', Parse gp fn' t = Ok f).
Proof.
  intros gp fn data [rs] H G. apply parse_shape in H. cbn [f_rules] in *.
  assert (L : Forall lex_rule rs) by (eapply Forall_impl; [|exact H]; cbn; tauto).
  destruct (print_parse gp rs fn L G) as (t & B & P). exists t. split; [exact B|]. intros fn'. apply parse_source. apply parse_source in P. exact P.
Qed.
Print Assumptions C04_reprint_stable.
Ltac a_read := eexists; split; [vm_compute; reflexivity|split; [repeat split|reflexivity]].
Ltac no_arrow := let x := fresh in let y := fresh in let H := fresh in
  intros x y H; repeat (destruct x as [|? x]; [cbn in H; congruence|cbn in H; injection H as _ H]); try (destruct x; discriminate).
Ltac ascii_text := apply utf8_ascii; repeat constructor.
Example C03_example : Forall lex_rule ex_rules /\ Forall (go_rule ParseExpr) ex_rules.
Proof.
  split; [pose proof ex_parse as X; apply parse_shape in X; cbn [f_rules] in X; eapply Forall_impl; [|exact X]; cbn; tauto|].
  unfold ex_rules.
  apply Forall_cons; [|apply Forall_cons; [|apply Forall_nil]]; unfold go_rule; cbn [r_match r_cond r_result go_value s_auxint s_aux s_args given fold_right].
  - split; [split; [|split; [|repeat split]]|split; [|repeat split; constructor]].
    + constructor; [|constructor]. split; [split; [reflexivity|ascii_text]|]. split; [discriminate|]. split; [cbn; intuition discriminate|a_read].
    + constructor; [|constructor]. split; [split; [reflexivity|ascii_text]|]. split; [discriminate|]. split; [cbn; intuition discriminate|a_read].
    + constructor; [|constructor]. split; [split; [reflexivity|ascii_text]|]. split.
      * eexists _, _. split; [reflexivity|]. split; [unfold blank|]; intuition discriminate.
      * split; [|apply SynTrim.reads_cond_iff; a_read]. vm_compute go_text. no_arrow.
  - split; [repeat split; constructor|]. split; [constructor|]. split; [split; [reflexivity|ascii_text]|].
    apply expr_call; [|a_read].
    assert (I : forall x, lower x -> ident [x]) by (intros x H; exists x, []; repeat split; [exact H|constructor]).
    apply (call_intro ParseExpr (str "f") [] (str "x") (Var (str "x")) (str ", g(_)") []); [apply I; reflexivity|constructor|apply expr_var, I; reflexivity| |constructor].
    apply (more_cons ParseExpr [] (str " ") (str "g(_)") (EVal (GCall (GIdent 0 (str "g")) 0 [GIdent 0 (str "_")] 0 0)) []); [constructor|apply ws1_sp| |constructor].
    apply expr_call; [|a_read].
    apply (call_intro ParseExpr (str "g") [] (str "_") (Var (str "_")) [] []); [apply I; reflexivity|constructor|apply expr_hole|constructor|constructor].
Qed.

(** * C06, C07: sources next to each other *)
Theorem C06_concatenation :
  forall gp fn s z rs rs', no_comment_expr gp ->
    Parse gp fn s = Ok (mkFile rs) -> Parse gp fn z = Ok (mkFile rs') -> rs ++ rs' <> [] ->
    Parse gp fn (s ++ [nl] ++ z) = Ok (mkFile (rs ++ rs')).
Proof.
  intros gp fn s z rs rs' Nc H H' Ne. rewrite !parse_source in *. destruct H as [U S], H' as [U' S']. split.
  - repeat apply utf8_app; auto. apply utf8_ascii. repeat constructor.
  - apply source_join; auto. split; [|discriminate]. apply (ws_cons [nl] []); [|constructor]. constructor. right. right. right. reflexivity.
Qed.
Print Assumptions C06_concatenation.
(** The proviso holds of Go's parser. *)
Theorem C06_go_parser : no_comment_expr ParseExpr.
Proof. exact ParseExpr_no_comment. Qed.
Print Assumptions C06_go_parser.
(** Two empty sources: the empty text is accepted, a lone newline is not. *)
Theorem C06_empty_sources_refuted :
  exists m, Parse ParseExpr [] [] = Ok (mkFile []) /\ Parse ParseExpr [] ([] ++ [nl] ++ []) = Err m.
Proof. eexists. split; vm_compute; reflexivity. Qed.
Print Assumptions C06_empty_sources_refuted.
Example C06_example : Parse ParseExpr [] (ex_source ++ [nl] ++ str "x => y") = Ok (mkFile (ex_rules ++ [mkRule (Var (str "x")) None [] (Var (str "y"))])).
Proof.
  apply C06_concatenation; [apply ParseExpr_no_comment|apply parse_source; exact (proj1 (parse_source _ _ _ _) ex_parse)|vm_compute; reflexivity|discriminate].
Qed.

Theorem C07_padding :
  forall gp fn a s b rs, no_comment_expr gp ->
    Parse gp fn s = Ok (mkFile rs) -> rs <> [] -> ws a -> ws b -> utf8 a -> utf8 b ->
    Parse gp fn (a ++ s ++ b) = Ok (mkFile rs).
Proof.
  intros gp fn a s b rs Nc H Ne A B Ua Ub. rewrite !parse_source in *. destruct H as [U S]. split; [repeat apply utf8_app; assumption|].
  cbn [f_rules] in *. apply source_prefix; auto. destruct b as [|c b]; [rewrite app_nil_r; exact S|].
  pose proof (source_join gp Nc s rs (c :: b) [] [] S (source_nil gp)) as J. rewrite !app_nil_r in J. apply J; [split; [exact B|discriminate]|exact Ne].
Qed.
Print Assumptions C07_padding.
Theorem C07_comment_only_refuted :
  exists m, Parse ParseExpr [] [] = Ok (mkFile []) /\ ws (str "// c" ++ [nl]) /\ Parse ParseExpr [] (str "// c" ++ [nl]) = Err m.
Proof.
  eexists. split; [vm_compute; reflexivity|]. split; [|vm_compute; reflexivity].
  apply (ws_cons (str "//" ++ str " c" ++ [nl]) []); [|constructor]. constructor. intros [H|[H|H]]; [discriminate..|exact H].
Qed.
Print Assumptions C07_comment_only_refuted.

(** * C08, C09: shape of parsed trees *)
Theorem C08_well_formed :
  forall gp fn data f, Parse gp fn data = Ok f ->
    Forall (fun r => lex_rule r /\ Forall supported (rule_exprs r)) (f_rules f).
Proof.
  intros gp fn data f H. apply parse_shape in H. eapply Forall_impl; [|exact H]. cbn. intros r [L O]. split; [exact L|].
  eapply Forall_impl; [|exact O]. cbn. intros e (t & _ & [(raw & _ & S & ->)|(u & _ & raw & _ & S & ->)]); apply supported_bare; exact S.
Qed.
Print Assumptions C08_well_formed.
Theorem C09_no_positions :
  forall gp fn data f, Parse gp fn data = Ok f -> Forall (fun r => Forall unplaced (rule_exprs r)) (f_rules f).
Proof.
  intros gp fn data f H. apply parse_shape in H. eapply Forall_impl; [|exact H]. cbn. intros r [_ O].
  eapply Forall_impl; [|exact O]. cbn. intros e (t & _ & [(raw & _ & _ & ->)|(u & _ & raw & _ & _ & ->)]); apply unplaced_bare.
Qed.
Print Assumptions C09_no_positions.
(** So equal expressions at different places give equal trees: two texts whose Go
    trees differ only in positions are interchangeable. *)
Theorem C09_equal_trees :
  forall gp t t' raw raw' e e', gp t = Ok raw -> gp t' = Ok raw' -> bare raw = bare raw' ->
    reads gp t e -> reads gp t' e' -> e = e'.
Proof. intros gp t t' raw raw' e e' G G' E (r & R & _ & ->) (r' & R' & _ & ->). congruence. Qed.
Print Assumptions C09_equal_trees.
Example C09_example :
  rule_exprs (hd (mkRule NilValue None [] NilValue) ex_rules) <> [] /\
  (exists p q, ParseExpr (str "x+y") = Ok (GBinary (GIdent 1 (str "x")) p ADD q) /\ p <> 0%N).
Proof. split; [discriminate|]. eexists _, _. split; [vm_compute; reflexivity|discriminate]. Qed.

(** A rule with the given operands. *)
Definition op_source (o : op) (operands : text) : text := str "(" ++ opcode_text o ++ operands ++ str ") => x".
Lemma op_source_ok gp fn o opst ops : op_wf o -> operands_form gp opst ops -> utf8 opst ->
  Parse gp fn (op_source o opst) = Ok (mkFile [mkRule (SExp (assemble [] o ops false false)) None [] (Var (str "x"))]).
Proof.
  intros Ho F U. apply single_rule.
  - unfold op_source. repeat apply utf8_app; auto; try (apply utf8_ascii; repeat constructor; fail). apply op_utf8. exact Ho.
  - replace (op_source o opst) with ((str "(" ++ opcode_text o ++ opst ++ [] ++ [] ++ [] ++ str ")") ++ [] ++ str " " ++ str "=>" ++ str " " ++ [] ++ [] ++ str "x")
      by (unfold op_source; cbn [app]; rewrite <- !app_assoc; reflexivity).
    apply rule_intro; [|constructor|apply ws1_sp|apply ws1_sp|constructor|constructor| |apply value_end_nil].
    + apply (value_sexpr gp [] [] o opst ops [] false [] false []); auto; constructor.
    + apply value_expr. apply expr_var. exists "x"%char, []. repeat split. constructor.
Qed.
(** * C10: the "..." of a call is not represented *)
Theorem C10_ellipsis_lost :
  forall gp fn t t' f p args el q f' p' args' q',
    gp t = Ok (GCall f p args el q) -> gp t' = Ok (GCall f' p' args' 0%N q') ->
    bare (GCall f p args el q) = bare (GCall f' p' args' 0%N q') ->
    t <> [] -> t' <> [] -> ~ In "}"%char t -> ~ In "}"%char t' -> utf8 t -> utf8 t' -> supported (GCall f p args el q) -> supported (GCall f' p' args' 0%N q') ->
    exists file, Parse gp fn (str "(A {" ++ t ++ str "}) => x") = Ok file /\ Parse gp fn (str "(A {" ++ t' ++ str "}) => x") = Ok file.
Proof.
  intros gp fn t t' f p args el q f' p' args' q' G G' E Ne Ne' N N' U U' S S'.
  assert (P : forall t e, reads gp t e -> t <> [] -> ~ In "}"%char t -> utf8 t ->
    Parse gp fn (str "(A {" ++ t ++ str "}) => x") = Ok (mkFile [mkRule (SExp (mkSExpr [] (Opcode (str "A")) [] None (Some e) [] false false)) None [] (Var (str "x"))])).
  { clear. intros t e R Ne N U.
    replace (str "(A {" ++ t ++ str "}) => x") with (op_source (Opcode (str "A")) (str " " ++ (str "{" ++ t ++ str "}") ++ []))
      by (unfold op_source; cbn; rewrite app_nil_r, <- app_assoc; reflexivity).
    rewrite (op_source_ok gp fn _ _ [OAux e]).
    - reflexivity.
    - split; [discriminate|]. constructor; [right; right; left; reflexivity|constructor].
    - constructor; [apply ws1_sp|apply operand_aux; assumption|constructor].
    - rewrite app_nil_r. repeat apply utf8_app; auto; apply utf8_ascii; repeat constructor. }
  eexists. split; [apply P; auto; exists (GCall f p args el q); auto|]. rewrite E. apply P; auto. exists (GCall f' p' args' 0%N q'). auto.
Qed.
Print Assumptions C10_ellipsis_lost.
Theorem C10_spread_call_refuted :
  exists f, Parse ParseExpr [] (str "(A {f(xs...)}) => x") = Ok f /\ Parse ParseExpr [] (str "(A {f(xs)}) => x") = Ok f.
Proof. eexists. split; vm_compute; reflexivity. Qed.
Print Assumptions C10_spread_call_refuted.

(** * C11: invalid UTF-8 *)
Theorem C11_utf8 : forall gp fn data f, Parse gp fn data = Ok f -> utf8 data.
Proof. intros gp fn data f H. apply parse_source in H. apply H. Qed.
Print Assumptions C11_utf8.
Example C11_example :   (* an invalid byte in a comment *)
  exists m, Parse ParseExpr [] (str "x => y //" ++ [ascii_of_N 255] ++ [nl]) = Err m /\
  Parse ParseExpr [] (str "x => y //" ++ [ascii_of_N 195; ascii_of_N 169] ++ [nl]) = Ok (mkFile [mkRule (Var (str "x")) None [] (Var (str "y"))]).
Proof. eexists. split; vm_compute; reflexivity. Qed.

(** * C12, C13: error messages *)
Theorem C12_error_places :
  forall gp fn data m, Parse gp fn data = Err m ->
    exists lines, lines <> [] /\ m = sep_by [nl] lines /\
      Forall (fun t => exists k l c dk dl dc rest,
        (place data k l c \/ (k = 0 /\ l = 1 /\ c = 1)%nat) /\ decimal k dk /\ decimal l dl /\ decimal c dc /\
        t = label fn (dl ++ str ":" ++ dc ++ str " (" ++ dk ++ str ")" ++ rest)) lines.
Proof.
  intros gp fn data m H. destruct (parse_messages gp data) as [[f P]|(es & Ne & F & P)]; [rewrite P in H; discriminate|].
  rewrite P in H. inversion H; subst. eexists. split; [|split; [reflexivity|]].
  - intros E. apply map_eq_nil in E. revert E. apply dedupe_head. destruct es; [congruence|discriminate].
  - rewrite Forall_map. apply Forall_forall. intros t I. apply dedupe_incl in I. apply in_map_iff in I. destruct I as (e & <- & I).
    rewrite Forall_forall in F. destruct (plain_place data e (F e I)) as (k & l & c & dk & dl & dc & rest & A & B & C & D & ->).
    exists k, l, c, dk, dl, dc, rest. auto.
Qed.
Print Assumptions C12_error_places.
Example C12_example :
  Parse ParseExpr (str "f") (str "x => y" ++ [nl] ++ str "z !") =
    Err (str "f:2:3 (9): no match found, expected: ""&&"", ""//"", ""=>"" or [ \t\r\n]").
Proof. vm_compute. reflexivity. Qed.

Theorem C13_filename_is_a_label :
  forall gp data,
    (exists f, forall fn, Parse gp fn data = Ok f) \/
    (exists messages, messages <> [] /\ forall fn, Parse gp fn data = Err (sep_by [nl] (map (label fn) messages))).
Proof.
  intros gp data. destruct (parse_messages gp data) as [H|(es & Ne & F & P)]; [left; exact H|right].
  exists (dedupe [] (map plain es)). split; [apply dedupe_head; destruct es; [congruence|discriminate]|exact P].
Qed.
Print Assumptions C13_filename_is_a_label.
Example C13_example :
  Parse ParseExpr (str "dir/f") (str "x => (A [1+] {2*})") = Err (sep_by [nl] (map (label (str "dir/f"))
    [str "1:9 (8): rule Operand: syntax error"; str "1:14 (13): rule Operand: syntax error"; str "1:6 (5): rule SExpr: unknown operand";
     str "1:19 (18): rule Rule: interface conversion: unexpected dynamic type, not ast.Value"])).
Proof. vm_compute. reflexivity. Qed.

(** * C14: Go expressions are not dropped *)
(** Every Go expression of a parsed file is the one of a text in the source. *)
Theorem C14_expressions_come_from_source :
  forall gp fn data f, Parse gp fn data = Ok f ->
    Forall (fun r => Forall (fun e => exists t, (exists a b, data = a ++ t ++ b) /\
        (reads gp t e \/ reads_cond gp t e)) (rule_exprs r)) (f_rules f).
Proof. intros gp fn data f H. apply parse_shape in H. eapply Forall_impl; [|exact H]. cbn. intros r [_ O]. exact O. Qed.
Print Assumptions C14_expressions_come_from_source.
(** A successful parse did not depend on any text being rejected: if the Go parser
    also accepted texts that it rejects, the result would be the same. *)
Theorem C14_rejections_never_help :
  forall gp gp' fn data f,
    (forall t, gp' t = gp t \/ forall raw, gp t = Ok raw -> ~ supported raw) ->
    Parse gp fn data = Ok f -> Parse gp' fn data = Ok f.
Proof.
  intros gp gp' fn data f H. apply parse_mono. intros t e (raw & G & S & ->). destruct (H t) as [E|E]; [|destruct (E raw G S)].
  exists raw. rewrite E. auto.
Qed.
Print Assumptions C14_rejections_never_help.
(** So if the result would depend on how a rejected text were read, there is none. *)
Theorem C14_bad_expression_fails :
  forall gp gp1 gp2 fn data f1 f2,
    (forall t, gp1 t = gp t \/ forall raw, gp t = Ok raw -> ~ supported raw) ->
    (forall t, gp2 t = gp t \/ forall raw, gp t = Ok raw -> ~ supported raw) ->
    Parse gp1 fn data = Ok f1 -> Parse gp2 fn data = Ok f2 -> f1 <> f2 ->
    exists m, Parse gp fn data = Err m.
Proof.
  intros gp gp1 gp2 fn data f1 f2 H1 H2 P1 P2 Ne. destruct (parse_total gp fn data) as [[f P]|H]; [exfalso|exact H].
  pose proof (C14_rejections_never_help gp gp1 fn data f H1 P) as Q1. pose proof (C14_rejections_never_help gp gp2 fn data f H2 P) as Q2. congruence.
Qed.
Print Assumptions C14_bad_expression_fails.
Example C14_example :
  exists m m', Parse ParseExpr [] (str "(A [x y]) => z") = Err m /\ Parse ParseExpr [] (str "(A) && x+ => z") = Err m'.
Proof. eexists _, _. split; vm_compute; reflexivity. Qed.

(** * C15: the whole condition *)
Theorem C15_whole_condition :
  forall gp fn m vm c res vr f,
    value_form gp m vm -> value_form gp res vr -> utf8 (cond_source m c res) -> free_cond c ->
    Parse gp fn (cond_source m c res) = Ok f <->
    exists t e, trimmed (one_line c) t /\ reads gp t e /\ f = mkFile [mkRule vm (Some e) [] vr].
Proof. exact cond_iff. Qed.
Print Assumptions C15_whole_condition.
(** Newlines become blanks, so a comment swallows the rest of the condition. *)
Theorem C15_comment_swallows_refuted :
  Parse ParseExpr [] (cond_source (str "x") (str "a // note" ++ [nl] ++ str "&& b") (str "y")) =
    Ok (mkFile [mkRule (Var (str "x")) (Some (GIdent 0%N (str "a"))) [] (Var (str "y"))]) /\
  reads ParseExpr (str "a && // note" ++ [nl] ++ str "b") (GBinary (GIdent 0%N (str "a")) 0%N LAND (GIdent 0%N (str "b"))) /\
  exists m, Parse ParseExpr [] (cond_source (str "x") (str "a && // note" ++ [nl] ++ str "b") (str "y")) = Err m.
Proof.
  split; [vm_compute; reflexivity|]. split; [|eexists; vm_compute; reflexivity].
  eexists. split; [vm_compute; reflexivity|]. split; [repeat split|reflexivity].
Qed.
Print Assumptions C15_comment_swallows_refuted.

(** * C16: operands in any order *)
(** The last type, auxint and aux win, the arguments keep their order, and that is
    all that matters. *)
Theorem C16_operands :
  forall gp fn o opst ops, op_wf o -> operands_form gp opst ops -> utf8 opst ->
    exists s, Parse gp fn (op_source o opst) = Ok (mkFile [mkRule (SExp s) None [] (Var (str "x"))]) /\
      s_op s = o /\ s_args s = args_of ops /\ s_type s = last (types_of ops) [] /\
      s_auxint s = last (map Some (auxints_of ops)) None /\ s_aux s = last (map Some (auxs_of ops)) None /\
      s_binding s = [] /\ s_ellipsis s = false /\ s_trailing s = false.
Proof. intros gp fn o opst ops Ho F U. eexists. split; [apply op_source_ok; eauto|]. cbn. repeat split. Qed.
Print Assumptions C16_operands.
Theorem C16_any_order :
  forall gp fn o t1 t2 ops1 ops2, op_wf o -> operands_form gp t1 ops1 -> operands_form gp t2 ops2 -> utf8 t1 -> utf8 t2 ->
    types_of ops1 = types_of ops2 -> auxints_of ops1 = auxints_of ops2 -> auxs_of ops1 = auxs_of ops2 -> args_of ops1 = args_of ops2 ->
    Parse gp fn (op_source o t1) = Parse gp fn (op_source o t2).
Proof.
  intros gp fn o t1 t2 ops1 ops2 Ho F1 F2 U1 U2 A B C D. rewrite (op_source_ok gp fn o t1 ops1), (op_source_ok gp fn o t2 ops2); auto.
  unfold assemble. rewrite A, B, C, D. reflexivity.
Qed.
Print Assumptions C16_any_order.
Example C16_example :
  Parse ParseExpr [] (op_source (Opcode (str "A")) (str " x {f} y [c] <t> z")) = Parse ParseExpr [] (op_source (Opcode (str "A")) (str " <t> [c] {f} x y z")) /\
  Parse ParseExpr [] (op_source (Opcode (str "A")) (str " <u> <t> x")) = Parse ParseExpr [] (op_source (Opcode (str "A")) (str " x <t>")).
Proof. split; vm_compute; reflexivity. Qed.

(** * C20: printing is injective *)
Theorem C20_printing_injective :
  forall gp r r' t, lex_rule r -> go_rule gp r -> lex_rule r' -> go_rule gp r' ->
    Bytes (NRule r) = Ok t -> Bytes (NRule r') = Ok t -> r = r'.
Proof.
  intros gp r r' t L G L' G' B B'. rewrite Bytes_eq in B, B'. cbn [node_bad node_text] in *.
  destruct (rule_bad r); [|discriminate]. destruct (rule_bad r'); [|discriminate]. inversion B; inversion B'; subst.
  destruct (print_parse gp [r] [] (Forall_cons _ L (Forall_nil _)) (Forall_cons _ G (Forall_nil _))) as (u & E & P).
  destruct (print_parse gp [r'] [] (Forall_cons _ L' (Forall_nil _)) (Forall_cons _ G' (Forall_nil _))) as (u' & E' & P').
  assert (u = u') as ->; [|congruence]. rewrite Bytes_eq in E, E'. cbn [node_bad node_text f_rules] in *.
  destruct (flat_map rule_bad [r]); [|discriminate]. destruct (flat_map rule_bad [r']); [|discriminate]. inversion E; inversion E'; subst.
  unfold file_text. cbn [f_rules map List.concat]. congruence.
Qed.
Print Assumptions C20_printing_injective.

(** * C26: expansion of parsed files *)
Theorem C26_parsed_no_panic :
  forall gp fn data f m, Parse gp fn data = Ok f -> ExpandAlternates f <> Panic m.
Proof. intros gp fn data f m H. apply proper_no_panic. eapply parsed_proper; eauto. Qed.
Print Assumptions C26_parsed_no_panic.
Example C26_example : exists rs, ExpandAlternates (mkFile ex_rules) = Ok (mkFile rs, None) /\ List.length rs = 3%nat.
Proof. eexists. split; vm_compute; reflexivity. Qed.
