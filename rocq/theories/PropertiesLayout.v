(** C72: reformatting a source does not change its rules.  Vocabulary: SpecLayout.v (words
    and layout), SpecSyntax.v. *)
From Verif Require Import Text GoAst Ast Utf8 GoExpr Parse GoParser SpecPrint SpecUtf8 SpecTrim SpecSyntax SpecSource SpecLayout SynFile SynExtend SynTrim LayoutFacts ParseUse PropertiesParse.
From Coq Require Import NArith Arith Bool Lia.
Open Scope nat_scope.
Open Scope list_scope.

Lemma same_length {A B} (R : A -> B -> Prop) l l' : Forall2 R l l' -> List.length l = List.length l'.
Proof. induction 1; cbn; congruence. Qed.
(** Words of the language, put together with any proper layout, are accepted, and the
    result does not depend on the layout. *)
Theorem C72_layout_does_not_matter :
  forall gp f, Forall (word_rule gp) (l_rules f) ->
    exists rs, List.length rs = List.length (l_rules f) /\
      forall fn f', file_words f' = file_words f -> laid_file f' -> utf8 (file_source f') ->
        Parse gp fn (file_source f') = Ok (mkFile rs).
Proof.
  intros gp f W. destruct (all_mean gp _ W) as [xs M]. exists xs. split; [symmetry; eapply same_length; exact M|].
  intros fn f' E L U. apply parse_source. split; [exact U|]. exact (laid_source gp _ _ W M f' E L).
Qed.
Print Assumptions C72_layout_does_not_matter.
(** And every accepted source is made of such words and layout, so it can be reformatted. *)
Theorem C72_any_source_can_be_reformatted :
  forall gp fn data file, no_comment_expr gp -> Parse gp fn data = Ok file ->
    exists f, file_source f = data /\ Forall (word_rule gp) (l_rules f) /\ laid_rules f /\ List.length (l_rules f) = List.length (f_rules file) /\
      forall fn' f', file_words f' = file_words f -> laid_file f' -> utf8 (file_source f') ->
        Parse gp fn' (file_source f') = Ok file.
Proof.
  intros gp fn data [xs] N P. apply parse_source in P. destruct P as [U S]. cbn [f_rules] in *. destruct (source_layout gp N _ _ S) as (f & E & W & L & M). exists f.
  split; [exact E|]. split; [exact W|]. split; [exact L|]. split; [eapply same_length; exact M|].
  intros fn' f' Ef Lf Uf. apply parse_source. split; [exact Uf|]. exact (laid_source gp _ _ W M f' Ef Lf).
Qed.
Print Assumptions C72_any_source_can_be_reformatted.

(** Inside a Go expression layout is not free: a line break ends it. *)
Theorem C72_inside_expressions_refuted :
  exists f m, Parse ParseExpr [] (str "(A [c + 1] x) => y") = Ok f /\ Parse ParseExpr [] (str "(A [c" ++ [nl] ++ str "+ 1] x) => y") = Err m.
Proof. eexists _, _. split; vm_compute; reflexivity. Qed.
Print Assumptions C72_inside_expressions_refuted.

(** Two layouts of the same two rules. *)
Definition lay (s : string) : lvalue := LAtom (str s).
Definition ex_rule1 (a b c d e f g h i : text) : lrule :=
  mkL a (LSexp (str "x") b (Opcode (str "Add")) (LMore c (LAuxInt (str "c+1")) (LMore d (LArg (lay "y")) LNone)) None (Some e) f) (Some (g, h, str "c > 0")) i [] None (lay "f(y)").
Definition ex_rule2 (a b c d : text) : lrule := mkL a (lay "z") None b c (Some (str "b", d)) (lay "_").
Definition ex_tight : lfile := mkLF [ex_rule1 [] [] [sp] [sp] [sp] [] [sp] [sp] [sp]; ex_rule2 [nl] [] [] [sp]] [].
Definition ex_note : text := str "// note" ++ [nl].
Definition ex_loose : lfile :=
  mkLF [ex_rule1 ex_note [sp] ([nl] ++ ex_note) [tab; sp] ex_note [nl] [nl; sp] (ex_note ++ [nl; tab]) [sp; nl; sp]; ex_rule2 (ex_note ++ ex_note) [sp; sp] ex_note [tab; nl]] ([nl] ++ ex_note).
Example C72_example :
  file_source ex_tight = str "x:(Add [c+1] y ___) && c > 0 =>f(y)" ++ [nl] ++ str "z=>@b _" /\
  file_source ex_loose = str "// note" ++ [nl] ++ str "x:( Add" ++ [nl] ++ str "// note" ++ [nl] ++ str "[c+1]" ++ [tab] ++ str " y// note" ++ [nl] ++ str "___" ++ [nl] ++ str ")" ++ [nl] ++ str " &&// note" ++ [nl; nl; tab] ++
    str "c > 0 " ++ [nl] ++ str " =>f(y)// note" ++ [nl] ++ str "// note" ++ [nl] ++ str "z  =>// note" ++ [nl] ++ str "@b" ++ [tab; nl] ++ str "_" ++ [nl] ++ str "// note" ++ [nl] /\
  Forall (word_rule ParseExpr) (l_rules ex_tight) /\ file_words ex_loose = file_words ex_tight /\ laid_file ex_tight /\ laid_file ex_loose.
Proof.
  assert (B : forall c, blank c -> skip [c]) by (intros c H; constructor; exact H).
  assert (N : ws ex_note) by (apply (ws_cons ex_note []); [apply (skip_comment (str " note")); cbn; intuition discriminate|constructor]).
  assert (Wsp : ws [sp]) by (apply (ws_cons [sp] []); [apply B; unfold blank; auto|constructor]).
  assert (Wnl : ws [nl]) by (apply (ws_cons [nl] []); [apply B; unfold blank; auto|constructor]).
  assert (Wt : ws [tab]) by (apply (ws_cons [tab] []); [apply B; unfold blank; auto|constructor]).
  assert (A : forall a b, ws a -> ws b -> ws (a ++ b)) by (intros a b Ha Hb; induction Ha; [exact Hb|rewrite <- app_assoc; constructor; auto]).
  assert (W0 : ws []) by constructor.
  split; [reflexivity|]. split; [reflexivity|]. split.
  - constructor; [|constructor; [|constructor]].
    + split; [|split; [|split]].
      * cbn. split; [right; exists "x"%char, []; repeat split; constructor|]. split; [split; [discriminate|repeat constructor; unfold word_char; cbn; tauto]|]. split; [split; [discriminate|split; [cbn; intuition discriminate|]]|].
        -- eexists. eexists. split; [vm_compute; reflexivity|]. split; [cbn; tauto|reflexivity].
        -- split; [|exact I]. eexists. apply expr_var. exists "y"%char, []. repeat split; constructor.
      * cbn. split; [intros (c & t & E & Hb); injection E as <- _; destruct Hb as [X|[X|[X|X]]]; discriminate|]. split; [intros t; discriminate|]. split; [|split; [discriminate|]].
        -- intros x y E. destruct x as [|? [|? [|? [|? [|? [|? x]]]]]]; try discriminate; reflexivity.
        -- eexists. apply reads_cond_iff. eexists. split; [vm_compute; reflexivity|]. split; [cbn; tauto|reflexivity].
      * exact I.
      * cbn. eexists. apply expr_call; [|eexists; split; [vm_compute; reflexivity|split; [cbn; tauto|reflexivity]]].
        apply (call_intro ParseExpr (str "f") [] (str "y") (Var (str "y")) [] []); try constructor; [exists "f"%char, []|exists "y"%char, []]; repeat split; constructor.
    + split; [|split; [|split]].
      * cbn. eexists. apply expr_var. exists "z"%char, []. repeat split; constructor.
      * exact I.
      * cbn. split; [discriminate|]. constructor; [|constructor]. intros [X|[X|X]]; discriminate.
      * cbn. eexists. apply expr_hole.
  - split; [reflexivity|]. split; (split; [split; [|split; [auto|discriminate]]|repeat constructor; discriminate]).
    + constructor; [|constructor; [|constructor]].
      * cbn. unfold ws1. repeat split; auto; try discriminate. repeat constructor.
      * cbn. repeat split; auto. exists sp, []. split; [reflexivity|]. unfold block_stop; auto.
    + constructor; [|constructor; [|constructor]].
      * cbn -[ex_note app]. unfold ws1. repeat split; auto; try discriminate; try (apply (A [_] _); auto; fail); try (apply A; auto; apply (A [_] _); auto; fail). 
        -- cbn. repeat (apply Forall_cons; [unfold blank; auto|]). apply Forall_nil.
        -- apply (A [sp] [nl; sp]); auto. apply (A [nl] [sp]); auto.
      * unfold laid_rule, ex_rule2. cbn [l_before l_match l_cond l_left l_right l_block l_result laid_value lay opt_all]. repeat split; auto; try (apply (A [_] _); auto; fail). exists tab, [nl]. split; [reflexivity|]. unfold block_stop; auto.
    + apply A; auto.
Qed.
