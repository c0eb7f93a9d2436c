(** What a syntax error says was expected (C65). *)
From Verif Require Import Text GoAst Ast Utf8 GoExpr Peg SpecPeg Grammar Parse SpecCmd SpecErr PegPoints ParseFacts ErrFacts PegLocal GoParser PropertiesLocal SpecPrint SpecExpect ExpectFacts ExpectText.
From Coq Require Import NArith Arith Bool Lia.
Open Scope nat_scope.
Open Scope list_scope.

Lemma expected_run gp fn data l c k dl dc dk more : decimal l dl -> decimal c dc -> decimal k dk ->
  Parse gp fn data = Err (label fn (dl ++ str ":" ++ dc ++ str " (" ++ dk ++ str "): no match found" ++ more)) ->
  exists tr ws, SpecExpect.reads the_grammar g_File data None tr /\ farthest data tr k (fun w => In w ws) /\ ws <> [] /\
    more = str ", expected: " ++ listJoin (expected_list ws) (str ", ") (str "or").
Proof.
  intros Dl Dc Dk E. destruct (no_match_run gp fn data l c k dl dc dk more Dl Dc Dk E) as (v & en & s & R & N & K).
  assert (L0 : ascii_lits g_File = true) by (vm_compute; reflexivity). assert (T0 : tame the_grammar g_File = true) by (vm_compute; reflexivity).
  destruct (proj1 (engine_track (run_action gp) the_grammar data grammar_lits grammar_tame (parse_bound data)) _ _ _ _ _ _ _ _ L0 T0 (init_inv data) R)
    as (tr & Rd & F & _).
  destruct (start_fail data) as (A & B & C).
  assert (T : rest (pt (start data)) = data).
  { unfold start. rewrite read_pt_eq, read_pt_rest. reflexivity. }
  change (read None (init_state data)) with (start data) in Rd, F.
  rewrite T in Rd. rewrite C in F. unfold fails in F. unfold fpos in F at 2. rewrite A, B in F. cbn [offset] in F.
  exists tr, (fail_expected s). split; [exact Rd|].
  pose proof (fold_farthest the_grammar data g_File None tr Rd) as Fa. rewrite <- F in Fa. unfold fpos in Fa. rewrite K in Fa. split; [exact Fa|].
  split.
  - destruct (reads_reason the_grammar _ _ _ Rd T0 grammar_tame) as (x & I & D).
    pose proof (fold_recorded data tr) as Q. rewrite <- F in Q. destruct Q as (_ & Q2 & [[_ Q3]|(y & Iy & Dy & Py)]); [exfalso; exact (Q3 x I D)|].
    intros Z. rewrite Z in Q2. apply (Q2 (shown y)). exists y. auto.
  - unfold Parse, parse_fuel in E. fold (start data) in E. rewrite R, N in E. cbn [addErrAt errs] in E. rewrite N in E.
    cbn [app errlist_err map dedupe existsb join_with cast] in E. rewrite render_label in E. inversion E as [Y]. apply label_inj in Y.
    unfold plain, render_error, render_pos in Y. cbn [app e_pos e_rule e_inner] in Y. rewrite <- !app_assoc in Y.
    destruct (decN_decimal (line (fail_pos s))) as [Nl _], (decN_decimal (col (fail_pos s))) as [Nc _], (decN_decimal (offset (fail_pos s))) as [Nk _].
    destruct Dl as [Dl _], Dc as [Dc _], Dk as [Dk _].
    apply digits_end in Y; [|assumption|assumption|unfold digit; cbn; lia]. destruct Y as [_ Y].
    apply digits_end in Y; [|assumption|assumption|unfold digit; cbn; lia]. destruct Y as [_ Y].
    inversion Y as [Y1]. apply digits_end in Y1; [|assumption|assumption|unfold digit; cbn; lia]. destruct Y1 as [_ Y1].
    unfold no_match in Y1. cbn in Y1. inversion Y1 as [Z]. reflexivity.
Qed.

(** * C65: what was expected
    The list after "expected:" is made of the terminals of the grammar that were tried at
    the reported byte and were not there, or were there and should not have been; nothing
    went wrong farther on. *)
Theorem C65_expected :
  forall gp fn data l c k dl dc dk more, decimal l dl -> decimal c dc -> decimal k dk ->
    Parse gp fn data = Err (label fn (dl ++ str ":" ++ dc ++ str " (" ++ dk ++ str "): no match found" ++ more)) ->
    exists tr wanted ws t, SpecExpect.reads the_grammar g_File data None tr /\ farthest data tr k wanted /\
      items wanted ws /\ ws <> [] /\ enumerated ws t /\ more = str ", expected: " ++ t.
Proof.
  intros gp fn data l c k dl dc dk more Dl Dc Dk E. destruct (expected_run gp fn data l c k dl dc dk more Dl Dc Dk E) as (tr & ws & R & F & N & ->).
  exists tr, (fun w => In w ws), (expected_list ws), (listJoin (expected_list ws) (str ", ") (str "or")).
  split; [exact R|]. split; [exact F|]. split; [apply expected_items|]. pose proof (expected_some ws N). split; [assumption|]. split; [apply joined; assumption|reflexivity].
Qed.
Print Assumptions C65_expected.
(** There is only one way to read a text, so this determines the list. *)
Theorem C65_one_reading :
  forall data o tr o' tr', SpecExpect.reads the_grammar g_File data o tr -> SpecExpect.reads the_grammar g_File data o' tr' -> o' = o /\ tr' = tr.
Proof. intros data o tr o' tr' R R'. exact (reads_fun the_grammar _ _ _ _ R _ _ R'). Qed.
Print Assumptions C65_one_reading.

(** The list is honest: what an item says does not hold of the text at the reported byte. *)
Theorem C65_honest :
  forall gp fn data l c k dl dc dk more, decimal l dl -> decimal c dc -> decimal k dk ->
    Parse gp fn data = Err (label fn (dl ++ str ":" ++ dc ++ str " (" ++ dk ++ str "): no match found" ++ more)) ->
    exists ws t, ws <> [] /\ enumerated ws t /\ more = str ", expected: " ++ t /\
      Forall (fun w => exists P, says w P /\ ~ P (skipn k data)) ws.
Proof.
  intros gp fn data l c k dl dc dk more Dl Dc Dk E. destruct (expected_run gp fn data l c k dl dc dk more Dl Dc Dk E) as (tr & fe & R & [_ F] & N & ->).
  exists (expected_list fe), (listJoin (expected_list fe) (str ", ") (str "or")). pose proof (expected_some fe N) as N'.
  split; [exact N'|]. split; [apply joined; exact N'|]. split; [reflexivity|].
  pose proof (reads_terms the_grammar (fun e => honest_b e = true) _ _ _ _ grammar_honest R) as H.
  assert (H0 : Forall (fun e => honest_b e = true) (terms g_File)) by (apply (grammar_honest (str "File")); reflexivity). apply H in H0. clear H. rewrite Forall_forall in H0.
  assert (Item : forall w, In w fe -> exists P, says w P /\ ~ P (skipn k data)).
  { intros w I. apply F in I. destruct I as (x & I & D & L & ->). destruct (honest_says (tried x) (H0 x I)) as (P & S & M).
    unfold disappointed in D. rewrite L in D. unfold shown. destruct (negated x).
    - exists (fun t => ~ P t). split; [apply sy_not; exact S|]. intros X. apply X, M, D.
    - exists P. split; [exact S|]. intros X. apply M in X. contradiction. }
  destruct (expected_items fe) as (front & _ & Fr & Eq). apply Forall_forall. intros w I.
  destruct Eq as [(W & E1)|(_ & E1)]; rewrite E1 in I; [apply in_app_or in I; destruct I as [I|[<-|[]]]|].
  - apply Item, Fr, I.
  - exists (fun t => t = []). split; [apply sy_eof|]. destruct (Item _ W) as (P & S & D). intros Z. apply D.
    apply (says_one _ _ (sy_not (str ".") _ sy_any) P S). intros X. contradiction.
  - apply Item, Fr, I.
Qed.
Print Assumptions C65_honest.
(** An item says one thing only. *)
Theorem C65_unambiguous : forall w P P', says w P -> says w P' -> forall t, P t <-> P' t.
Proof. intros w P P' S S'. exact (says_one w P S P' S'). Qed.
Print Assumptions C65_unambiguous.

Example C65_example :
  let data := str "(Add x y -> (Foo x)" ++ [nl] in
  decimal 1 (str "1") /\ decimal 10 (str "10") /\ decimal 9 (str "9") /\
  Parse ParseExpr (str "x.rules") data = Err (label (str "x.rules") (str "1" ++ str ":" ++ str "10" ++ str " (" ++ str "9" ++ str "): no match found" ++
    str ", expected: ""("", "")"", ""..."", ""//"", ""<"", ""["", ""_"", ""___"", ""{"", [ \t\r\n] or [a-z]")) /\
  (exists P, says (str """...""") P /\ P (str "...)") /\ ~ P (skipn 9 data)) /\
  (exists P, says (str "[ \t\r\n]") P /\ P (str " ") /\ ~ P (skipn 9 data)).
Proof.
  assert (D : forall n t, Forall digit t /\ number t = n /\ t <> [] /\ (t <> ["0"%char] -> hd_error t <> Some "0"%char) -> decimal n t) by (intros; exact H).
  assert (D' : forall n t, Forall digit t -> number t = n -> hd_error t <> None -> hd_error t <> Some "0"%char -> decimal n t).
  { intros n t A B C E. apply D. split; [exact A|]. split; [exact B|]. split; [intros ->; apply C; reflexivity|intros _; exact E]. }
  cbn zeta. split; [|split; [|split; [|split; [vm_compute; reflexivity|split]]]].
  1-3: apply D'; [repeat constructor; unfold digit; cbn; lia|vm_compute; reflexivity|discriminate|discriminate].
  - eexists. split; [apply (sy_literal [str "."; str "."; str "."] (str "...")); [repeat constructor; discriminate|discriminate]|].
    split; [exists (str ")"); reflexivity|]. intros [r E]. discriminate.
  - eexists. split; [apply (sy_class (str " \t\r\n")); discriminate|]. split; [exists " "%char, []; split; reflexivity|].
    intros (c & r & E & B). injection E as <- _. discriminate.
Qed.
(** A place where a character is unwelcome. *)
Example C65_example_not :
  Parse ParseExpr [] (str "x => @ y") = Err (str "1:7 (6): no match found, expected: ![ \t\r]") /\
  exists P, says (str "![ \t\r]") P /\ ~ P (skipn 6 (str "x => @ y")).
Proof.
  split; [vm_compute; reflexivity|]. eexists. split; [apply (sy_not (str "[ \t\r]")), (sy_class (str " \t\r")); discriminate|].
  intros H. apply H. exists " "%char, (str "y"). split; reflexivity.
Qed.

(** The list is not complete: of a text that goes on differently from the reported byte,
    and parses, none of what was expected need be true. *)
Theorem C65_complete_refuted :
  exists data data' k ws t f, enumerated ws t /\
    Parse ParseExpr [] data = Err (str "1:5 (4): no match found, expected: " ++ t) /\ k = 4 /\
    firstn k data' = firstn k data /\ Parse ParseExpr [] data' = Ok f /\
    Forall (fun w => exists P, says w P /\ ~ P (skipn k data')) ws.
Proof.
  exists (str "(A _"), (str "(A ___) => x"), 4, [str """)"""; str """//"""; str "[ \t\r\n]"], (str """)"", ""//"" or [ \t\r\n]").
  eexists. split; [|split; [vm_compute; reflexivity|split; [reflexivity|split; [reflexivity|split; [vm_compute; reflexivity|]]]]].
  - apply (en_more [str """)"""; str """//"""] (str "[ \t\r\n]") (str """)"", ""//""")); [discriminate|reflexivity].
  - constructor; [|constructor; [|constructor; [|constructor]]].
    + eexists. split; [apply (sy_literal [str ")"] (str ")")); [repeat constructor; discriminate|discriminate]|]. intros [r E]. discriminate.
    + eexists. split; [apply (sy_literal [str "/"; str "/"] (str "//")); [repeat constructor; discriminate|discriminate]|]. intros [r E]. discriminate.
    + eexists. split; [apply (sy_class (str " \t\r\n")); discriminate|]. intros (c & r & E & B). injection E as <- _. discriminate.
Qed.
Print Assumptions C65_complete_refuted.
