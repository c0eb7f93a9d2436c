(** C05: Go expressions survive printing and parsing when no two operators merge.
    ParseExpr is the reference model of go/parser (GoParser.v); the specification of
    the trees concerned is SpecGo.v. *)
From Verif Require Import Text GoAst Ast GoExpr GoParser Printer SpecPrint SpecSyntax SpecTrees SpecGo SpecScan PrintFacts SynExpr SynShape GoFuel GoTree GoLex GoText GoOrdered GoBack SpecWords SpecBack GoWords GoExact.
Open Scope nat_scope.
From Coq Require Import NArith Arith Bool Lia.

(** Every tree that respects precedence and in which no operators merge: the printer
    writes a text for it, and goexpr.Parse reads that text as the same tree. *)
Theorem C05_print_parse :
  forall e, ordered e -> smooth e -> unplaced e ->
    exists t, Bytes (NExpr e) = Ok t /\ goexpr_parse ParseExpr t = Ok e.
Proof.
  intros e O S U. exists (go_text e). split; [rewrite Bytes_eq; cbn [node_bad]; rewrite (ordered_good e O); reflexivity|].
  apply reads_spec. rewrite <- (bare_unplaced e U) at 2. apply go_text_reads; assumption.
Qed.
Print Assumptions C05_print_parse.

(** The names and literals in these trees are those of the Go specification (SpecWords.v);
    the reference scanner reads exactly those. *)
Theorem C05_words :
  (forall x, scanned_name x <-> go_identifier x) /\ (forall k v, scanned_literal k v <-> go_lit k v).
Proof. split; [exact name_words|exact literal_words]. Qed.
Print Assumptions C05_words.
Example C05_words_example :
  scanned_name (str "_x9") /\ ~ scanned_name (str "const") /\ go_lit LFloat (str "1.e-7") /\ go_lit LInt (str "0xfF") /\ ~ scanned_literal LInt (str "08") /\
  go_lit LInt (str "0b1_0") /\ go_lit LFloat (str "0x_1.8p-2") /\ go_lit LImag (str "0_9i") /\ go_lit LChar (str "'\u00e9'") /\ ~ scanned_literal LChar (str "'\ud800'") /\ ~ scanned_literal LInt (str "1__0").
Proof.
  split; [eexists; vm_compute; reflexivity|]. split; [intros [p H]; vm_compute in H; discriminate|].
  split; [apply literal_words; eexists; vm_compute; reflexivity|]. split; [apply literal_words; eexists; vm_compute; reflexivity|].
  split; [intros [p H]; vm_compute in H; discriminate|].
  do 4 (split; [apply literal_words; eexists; vm_compute; reflexivity|]). split; intros [p H]; vm_compute in H; discriminate.
Qed.

(** Beyond ASCII: a name with U+00E9, one with the Arabic digit U+0663 after a letter;
    not with that digit first, and not with the sign U+20AC. *)
Example C05_words_unicode :
  let e' := Utf8.bytes_of [195; 169]%N in let three := Utf8.bytes_of [217; 163]%N in let euro := Utf8.bytes_of [226; 130; 172]%N in
  go_identifier (str "x" ++ e') /\ go_identifier (e' ++ three) /\ ~ go_identifier (three ++ str "x") /\ ~ go_identifier (str "x" ++ euro) /\
  goexpr_parse ParseExpr (e' ++ str "<x" ++ three) = Ok (GBinary (GIdent 0%N e') 0%N LSS (GIdent 0%N (str "x" ++ three))) /\
  goexpr_parse ParseExpr (str "x" ++ euro) = Err (str "illegal character").
Proof.
  cbv zeta. rewrite <- !(proj1 C05_words). split; [eexists; vm_compute; reflexivity|]. split; [eexists; vm_compute; reflexivity|].
  split; [intros [p H]; vm_compute in H; discriminate|]. split; [intros [p H]; vm_compute in H; discriminate|]. split; vm_compute; reflexivity.
Qed.

(** Every text that goexpr.Parse accepts: its tree respects precedence and carries no
    positions, so that if no operators merge in it, printing it and reading it again
    gives it back. *)
Theorem C05_parsed_is_ordered :
  forall t e, goexpr_parse ParseExpr t = Ok e -> ordered e /\ unplaced e.
Proof. intros t e R. apply reads_spec in R. split; [exact (reads_ordered t e R)|]. destruct R as (raw & _ & _ & ->). apply unplaced_bare. Qed.
Print Assumptions C05_parsed_is_ordered.

Theorem C05_parse_print_parse :
  forall t e, goexpr_parse ParseExpr t = Ok e -> smooth e ->
    exists t', Bytes (NExpr e) = Ok t' /\ goexpr_parse ParseExpr t' = Ok e.
Proof. intros t e R S. destruct (C05_parsed_is_ordered t e R). apply C05_print_parse; assumption. Qed.
Print Assumptions C05_parse_print_parse.

(** The conditions are exact: the trees that survive are those. *)
Theorem C05_exactly :
  forall e, (exists t, Bytes (NExpr e) = Ok t /\ goexpr_parse ParseExpr t = Ok e) <-> ordered e /\ smooth e /\ unplaced e.
Proof.
  intros e. split; [|intros (O & S & U); apply C05_print_parse; assumption]. intros (t & B & P). destruct (C05_parsed_is_ordered t e P) as [O U].
  split; [exact O|]. split; [|exact U]. rewrite Bytes_eq in B. cbn [node_bad] in B. rewrite (ordered_good e O) in B. injection B as <-.
  apply reads_spec in P. exact (reads_smooth e O P).
Qed.
Print Assumptions C05_exactly.
(** The last one's text has a comment in it, and is read as a+b. *)
Example C05_exactly_example :
  let dec x := GUnary 0%N SUB x in let v x := GIdent NoPos (str x) in
  let bad := GBinary (v "a"%string) 0%N SUB (dec (v "b"%string)) in let good := GBinary (v "a"%string) 0%N SUB (GParen 0%N (dec (v "b"%string)) 0%N) in
  let half := GSelector (GBasicLit 0%N LFloat (str "1.5")) 0%N (str "x") in
  let sum := GBinary (v "a"%string) 0%N ADD (v "b"%string) in
  goexpr_parse ParseExpr (str "a - -b") = Ok bad /\ ~ smooth bad /\ goexpr_parse ParseExpr (str "a - (-b)") = Ok good /\ smooth good /\
  goexpr_parse ParseExpr (str "1.5.x") = Ok half /\ smooth half /\
  exists e t, goexpr_parse ParseExpr (str "a / *f(""*/+b//"")") = Ok e /\ ~ smooth e /\ Bytes (NExpr e) = Ok t /\ t = str "a/*f(""*/+b//"")" /\ goexpr_parse ParseExpr t = Ok sum.
Proof.
  cbn zeta. split; [vm_compute; reflexivity|]. split; [cbn; unfold apart; cbn; intros [[X|X] _]; [lia|tauto]|]. split; [vm_compute; reflexivity|]. split; [cbn; tauto|].
  split; [vm_compute; reflexivity|]. split; [cbn; tauto|]. eexists _, _. split; [vm_compute; reflexivity|]. split; [cbn; unfold apart; cbn; intros [[X|X] _]; [lia|tauto]|].
  split; [vm_compute; reflexivity|]. split; vm_compute; reflexivity.
Qed.

(** ** Scanning and parsing always finish *)
Lemma comment_end_len s : forall b h r, comment_end s b = Some (h, r) -> List.length r <= List.length s.
Proof.
  induction s as [|c s IH]; intros b h r E; [discriminate|]. cbn [comment_end] in E. destruct s as [|d s']; [discriminate|].
  destruct (ch c "*" && ch d "/"); [inversion E; subst; cbn; lia|]. apply IH in E. cbn in *. lia.
Qed.
Lemma operator_len s t k : lex_operator s = Some (t, k) -> 1 <= k.
Proof.
  unfold lex_operator. destruct (find _ operators) as [[o t']|] eqn:E; [|discriminate]. intros X. inversion X; subst. apply find_some in E. destruct E as [I _].
  repeat (destruct I as [I|I]; [inversion I; subst; cbn; lia|]). destruct I.
Qed.
Lemma lex_fine n : forall semi pos s, List.length s < n -> fine (lex n semi pos s) (fun _ => True).
Proof.
  induction n as [|n IH]; intros semi pos s L; [lia|]. cbn [lex]. destruct s as [|c s]; [destruct semi; exact I|]. cbn [List.length] in L.
  assert (K : forall t semi' len r, List.length r <= List.length s -> fine (bind (lex n semi' (pos + N.of_nat len)%N r) (fun ts => Ok ((t, pos) :: ts))) (fun _ => True)).
  { intros t semi' k r Lr. eapply fine_bind; [apply IH; lia|]. intros; exact I. }
  destruct (ch c nl); [destruct semi; [apply K; lia|apply IH; lia]|].
  destruct (ch c sp || ch c tab || ch c cr); [apply IH; lia|].
  destruct (is_letter c) eqn:Le.
  { destruct (span is_alnum (c :: s)) as [w r] eqn:Sp. assert (Lr : List.length r <= List.length s).
    { cbn [span] in Sp. unfold is_alnum in Sp at 1. rewrite Le in Sp. cbn [orb] in Sp. destruct (span is_alnum s) as [a b] eqn:Sp'. inversion Sp; subst. apply span_eq in Sp'. destruct Sp' as (-> & _). rewrite app_length. lia. }
    destruct (is_keyword w); [|destruct (good_name w); [|exact I]]; apply K; exact Lr. }
  destruct (is_digit c || (ch c "." && match s with d :: _ => is_digit d | [] => false end)) eqn:Dg.
  { destruct (lex_number (c :: s)) as [[[k v] r]|] eqn:Nu; [|exact I]. apply K. destruct (number_head _ _ _ _ _ Nu Dg) as (t & -> & _). apply (number_spec _ _ _ _ []) in Nu. destruct Nu as [E _]. cbn in E. inversion E; subst. rewrite app_length. lia. }
  destruct (ch c dquote). { destruct (quoted dquote false s) as [[a r]|] eqn:Q; [|exact I]. destruct (good_quoted dquote a); [|exact I]. apply quoted_eq in Q. destruct Q as [-> _]. apply K. rewrite app_length. lia. }
  destruct (ch c "'"). { destruct (quoted "'" false s) as [[a r]|] eqn:Q; [|exact I]. destruct (good_quoted "'" a); [|exact I]. apply quoted_eq in Q. destruct Q as [-> _]. apply K. rewrite app_length. lia. }
  destruct (ch c "`"). { destruct (quoted "`" true s) as [[a r]|] eqn:Q; [|exact I]. apply quoted_eq in Q. destruct Q as [-> _]. apply K. rewrite app_length. lia. }
  assert (Ko : forall s0, List.length s0 = S (List.length s) -> fine (match lex_operator s0 with
       | Some (t, k) => bind (lex n (ends_statement t) (pos + N.of_nat k)%N (skipn k s0)) (fun ts => Ok ((t, pos) :: ts)) | None => Err (str "illegal character") end) (fun _ => True)).
  { intros s0 E0. destruct (lex_operator s0) as [[t k]|] eqn:Op; [|exact I]. apply operator_len in Op. apply K. rewrite skipn_length. lia. }
  destruct s as [|d s]; [apply (Ko [c]); reflexivity|].
  destruct (ch c "/" && ch d "/").
  { destruct (span (fun x => negb (ch x nl)) s) as [a r] eqn:Sp. apply span_eq in Sp. destruct Sp as (-> & _). apply IH. cbn [List.length] in L. rewrite app_length in L. lia. }
  destruct (ch c "/" && ch d "*"); [|apply (Ko (c :: d :: s)); reflexivity].
  destruct (comment_end s false) as [[h r]|] eqn:Ce; [|exact I]. apply comment_end_len in Ce. cbn [List.length] in L.
  destruct (semi && h); [eapply fine_bind; [apply IH; lia|intros; exact I]|apply IH; lia].
Qed.
Lemma scan_fine s : fine (scan s) (fun _ => True).
Proof.
  assert (X : forall pos t, fine (scan_from pos t) (fun _ => True)) by (intros pos t; unfold scan_from; destruct (source_chars _ _); [apply lex_fine; lia|exact I]).
  unfold scan. destruct (has_prefix bom s); apply X.
Qed.
Lemma ParseExpr_fine s : fine (ParseExpr s) (fun _ => True).
Proof.
  unfold ParseExpr. eapply fine_bind; [apply scan_fine|]. intros ts _. eapply fine_bind; [apply (proj1 (fuel_enough _)); lia|].
  intros [e r] _. destruct r as [|[[] p] [|? ?]]; exact I.
Qed.

(** goexpr.Parse returns a tree or an error on every text. *)
Theorem C05_parse_total : forall t m, goexpr_parse ParseExpr t <> Panic m.
Proof.
  intros t m. unfold goexpr_parse. pose proof (ParseExpr_fine t) as F. destruct (ParseExpr t) as [e|x|x]; cbn [bind]; [destruct (unsupported e)|..]; try discriminate. destruct F.
Qed.
Print Assumptions C05_parse_total.

(** ** A tree with calls, selectors, nested unary operators, all levels *)
Definition nm (x : string) : gexpr := GIdent NoPos (str x).
Definition ex_go : gexpr :=
  (GBinary (GUnary 0 NOT (GCall (GSelector (nm "config") 0 (str "f")) 0 [GUnary 0 SUB (GUnary 0 XOR (nm "c")); GBasicLit 0 LInt (str "0x7f"); GBasicLit 0 LString (str """a b""")] 0 0))
          0 LAND
          (GBinary (GBinary (nm "x") 0 SUB (GBinary (GParen 0 (GBinary (nm "y") 0 ADD (GUnary 0 SUB (GBasicLit 0 LInt (str "1")))) 0) 0 MUL (GStar 0 (nm "p"))))
                   0 LSS (GUnary 0 ARROW (nm "ch"))))%N.
Ltac a_scan := first [apply name_words|apply literal_words]; eexists; vm_compute; reflexivity.
Ltac an_order := repeat (match goal with |- _ /\ _ => split | |- True => exact I | |- go_identifier _ => a_scan | |- go_lit _ _ => a_scan
  | |- prefix_op _ => unfold prefix_op; cbn; tauto | |- infix _ => unfold infix; cbn; lia | |- _ <= _ => cbn; lia | |- _ < _ => cbn; lia | |- _ = _ => reflexivity
  | |- apart _ \/ _ => first [right; intros []; fail|left; unfold apart; cbn; lia] | |- ~ _ => intros [] end; cbn [ordered smooth fold_right map]).
Example C05_example : ordered ex_go /\ smooth ex_go /\ unplaced ex_go /\
  go_text ex_go = str "!config.f(-^c, 0x7f, ""a b"") && x-(y+-1)**p < <-ch".
Proof. split; [unfold ex_go, nm; cbn [ordered smooth fold_right map]; an_order|]. split; [unfold ex_go, nm; cbn [ordered smooth fold_right map]; an_order|]. split; [cbn; tauto|reflexivity]. Qed.

(** ** Without the condition on operators it fails: parsed texts whose printed form is
    read as another tree or not at all *)
Definition survives (t : text) : Prop :=
  exists e t', goexpr_parse ParseExpr t = Ok e /\ Bytes (NExpr e) = Ok t' /\ goexpr_parse ParseExpr t' = Ok e.
Ltac fails := intros (e & t' & H1 & H2 & H3); vm_compute in H1; inversion H1; subst; vm_compute in H2; inversion H2; subst; vm_compute in H3; discriminate.
Theorem C05_merging_operators_refuted :
  Forall (fun t => (exists e, goexpr_parse ParseExpr t = Ok e) /\ ~ survives t)
    (map str ["a - -b"; "a + +b"; "a & ^b"; "a & &b"; "a / *p"; "- -x"; "+ +x"; "& &x"; "& ^x"; "1 .x"]%string).
Proof. cbn [map]. repeat (apply Forall_cons; [split; [eexists; vm_compute; reflexivity|fails]|]). apply Forall_nil. Qed.
Print Assumptions C05_merging_operators_refuted.
(** Two of them are not rejected but silently read as other trees. *)
Theorem C05_changed_silently_refuted :
  Forall (fun t => exists e e' t', goexpr_parse ParseExpr t = Ok e /\ Bytes (NExpr e) = Ok t' /\ goexpr_parse ParseExpr t' = Ok e' /\ e <> e')
    (map str ["a & ^b"; "a & &b"]%string).
Proof.
  cbn [map]. repeat (apply Forall_cons; [eexists _, _, _; split; [vm_compute; reflexivity|]; split; [vm_compute; reflexivity|]; split; [vm_compute; reflexivity|discriminate]|]). apply Forall_nil.
Qed.
Print Assumptions C05_changed_silently_refuted.
