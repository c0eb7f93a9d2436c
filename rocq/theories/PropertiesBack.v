(** C03, C04, C20 for the reference model of go/parser: hypotheses on the trees only
    (SpecBack.v). *)
From Verif Require Import Text GoAst Ast Utf8 GoExpr Parse Printer SpecPrint SpecUtf8 SpecSyntax SpecTrees SpecGo SpecBack SynShape PropertiesParse GoBack ExactBack GoExact GoReturns PropertiesGo GoParser.
From Coq Require Import NArith Arith Bool Lia.
Open Scope nat_scope.

(** * C03: any such rules survive printing and parsing *)
Theorem C03_trees :
  forall fn rs, Forall lex_rule rs -> Forall writable_rule rs ->
    exists t, Bytes (NFile (mkFile rs)) = Ok t /\ Parse ParseExpr fn t = Ok (mkFile rs).
Proof. intros fn rs L W. apply C03_print_parse; [exact L|]. eapply Forall_impl; [|exact W]. apply writable_go_rule. Qed.
Print Assumptions C03_trees.
(** The conditions are exact: of all rules whatever, these are the ones that survive. *)
Theorem C03_exactly :
  forall fn rs,
    (exists t, Bytes (NFile (mkFile rs)) = Ok t /\ Parse ParseExpr fn t = Ok (mkFile rs)) <->
    Forall lex_rule rs /\ Forall writable_rule rs.
Proof.
  intros fn rs. split; [|intros [L W]; apply C03_trees; assumption]. intros (t & B & P).
  assert (L : Forall lex_rule rs) by (eapply Forall_impl; [|exact (parse_shape _ _ _ _ P)]; cbn; tauto). split; [exact L|].
  pose proof (parsed_placed fn t _ P (or_introl (back_free fn rs t B P))) as A. cbn [f_rules] in A.
  assert (S : Forall (fun r => Forall smooth (rule_exprs r)) rs).
  { apply (exact_back fn rs t); auto. }
  rewrite Forall_forall in *. intros r I. split; auto.
Qed.
Print Assumptions C03_exactly.

(** * C04: any parsed file survives printing and parsing, if no operators merge and no
    literal of a condition contains the arrow *)
Theorem C04_parsed_files :
  forall fn data f, Parse ParseExpr fn data = Ok f ->
    (forall r e, In r (f_rules f) -> In e (rule_exprs r) -> smooth e) ->
    (forall r e v, In r (f_rules f) -> r_cond r = Some e -> In v (literals e) -> ~ has_arrow v) ->
    exists t, Bytes (NFile f) = Ok t /\ forall fn', Parse ParseExpr fn' t = Ok f.
Proof.
  intros fn data f H S A. apply (C04_reprint_stable ParseExpr fn data f H). eapply Forall_impl; [apply writable_go_rule|].
  apply (parsed_writable fn data f H); [apply Forall_forall; intros r I; apply Forall_forall; eauto|left].
  apply Forall_forall. intros r I. apply Forall_forall. intros v Iv. apply in_flat_map in Iv. destruct Iv as (e & Ie & Iv). destruct (r_cond r) as [e'|] eqn:C; [|destruct Ie]. destruct Ie as [<-|[]]. eauto.
Qed.
Print Assumptions C04_parsed_files.
(** In a source without carriage returns no literal of a condition does. *)
Theorem C04_parsed_unix_files :
  forall fn data f, Parse ParseExpr fn data = Ok f -> ~ In cr data ->
    (forall r e, In r (f_rules f) -> In e (rule_exprs r) -> smooth e) ->
    exists t, Bytes (NFile f) = Ok t /\ forall fn', Parse ParseExpr fn' t = Ok f.
Proof.
  intros fn data f H N S. apply (C04_reprint_stable ParseExpr fn data f H). eapply Forall_impl; [apply writable_go_rule|].
  apply (parsed_writable fn data f H); [apply Forall_forall; intros r I; apply Forall_forall; eauto|right; exact N].
Qed.
Print Assumptions C04_parsed_unix_files.
(** The two conditions are exact ... *)
Theorem C04_exactly :
  forall fn data f, Parse ParseExpr fn data = Ok f ->
    ((exists t fn', Bytes (NFile f) = Ok t /\ Parse ParseExpr fn' t = Ok f) <->
     (forall r e, In r (f_rules f) -> In e (rule_exprs r) -> smooth e) /\
     (forall r e v, In r (f_rules f) -> r_cond r = Some e -> In v (literals e) -> ~ has_arrow v)).
Proof.
  intros fn data f H. split.
  - intros (t & fn' & B & P). destruct f as [rs]. cbn [f_rules] in *.
    destruct (proj1 (C03_exactly fn' rs) (ex_intro _ t (conj B P))) as [_ W]. rewrite Forall_forall in W. split.
    + intros r e I Ie. destruct (W r I) as [_ S]. rewrite Forall_forall in S. auto.
    + intros r e v I Ec Iv. destruct (W r I) as [(_ & C & _) _]. rewrite Ec in C. inversion C as [|? ? (_ & _ & F) _]; subst. rewrite Forall_forall in F. apply (F v Iv).
  - intros [S A]. destruct (C04_parsed_files fn data f H S A) as (t & B & P). exists t, fn. auto.
Qed.
Print Assumptions C04_exactly.
(** ... and in a source without carriage returns the one on operators alone is. *)
Theorem C04_exactly_unix :
  forall fn data f, Parse ParseExpr fn data = Ok f -> ~ In cr data ->
    ((exists t fn', Bytes (NFile f) = Ok t /\ Parse ParseExpr fn' t = Ok f) <->
     (forall r e, In r (f_rules f) -> In e (rule_exprs r) -> smooth e)).
Proof.
  intros fn data f H N. split.
  - intros X. apply (C04_exactly fn data f H). exact X.
  - intros S. destruct (C04_parsed_unix_files fn data f H N S) as (t & B & P). exists t, fn. auto.
Qed.
Print Assumptions C04_exactly_unix.

(** Both conditions are needed: this file has a raw string literal whose carriage return
    Go drops, and this one a condition whose operators merge. *)
Definition not_stable (data : text) : Prop :=
  exists f t, Parse ParseExpr (str "x.rules") data = Ok f /\ Bytes (NFile f) = Ok t /\ Parse ParseExpr (str "x.rules") t <> Ok f.
Theorem C04_stability_refuted :
  Forall not_stable [str "(A x) && a == `=" ++ [cr] ++ str ">` => x" ++ [nl]; str "(A x) && a - -b > 0 => x" ++ [nl]; str "(A [c & ^d] x) => x" ++ [nl]].
Proof. repeat (apply Forall_cons; [eexists _, _; split; [vm_compute; reflexivity|]; split; [vm_compute; reflexivity|vm_compute; discriminate]|]). apply Forall_nil. Qed.
Print Assumptions C04_stability_refuted.

(** * C20: different rules print differently *)
Theorem C20_trees :
  forall r r' t, lex_rule r -> writable_rule r -> lex_rule r' -> writable_rule r' ->
    Bytes (NRule r) = Ok t -> Bytes (NRule r') = Ok t -> r = r'.
Proof. intros r r' t L W L' W'. apply (C20_printing_injective ParseExpr); auto; apply writable_go_rule; assumption. Qed.
Print Assumptions C20_trees.

(** ** A file that meets the hypotheses, with every kind of expression *)
Definition ex_data : text := str "(Add(8|16) <t> [c+1] {s.f(""]x"")} x:(Foo _ ...) y) && !isP(x, ""=/ >"") && c-(d+-1) < 0x7f // more" ++ [nl] ++ str "=> @x.Block f(g(x), _)" ++ [nl].
Definition ex_data' : text := str "(Add(8|16) <t> [c+1] {s.f(""]x"")} x:(Foo _ ...) y) && !isP(x, ""=/ >"") && c-(d+-1) < 0x7f => @x.Block f(g(x), _)" ++ [nl].
Example C04_example : exists f, Parse ParseExpr (str "x.rules") ex_data = Ok f /\ ~ In cr ex_data /\
  (forall r e, In r (f_rules f) -> In e (rule_exprs r) -> smooth e) /\ Bytes (NFile f) = Ok ex_data'.
Proof.
  eexists. split; [vm_compute; reflexivity|]. split; [vm_compute; intuition discriminate|]. split; [|vm_compute; reflexivity].
  intros r e [<-|[]] H. cbn in H. repeat (destruct H as [<-|H]; [cbn; unfold merges; cbn; unfold apart; cbn; repeat split; try tauto; try (left; lia); try (right; tauto)|]). destruct H.
Qed.
Example C03_example : exists r, lex_rule r /\ writable_rule r /\ Bytes (NFile (mkFile [r])) = Ok ex_data'.
Proof.
  destruct C04_example as (f & P & N & S & B).
  assert (W : Forall writable_rule (f_rules f)) by (apply (parsed_writable _ _ _ P); [apply Forall_forall; intros r I; apply Forall_forall; eauto|auto]).
  assert (L : Forall lex_rule (f_rules f)) by (eapply Forall_impl; [|exact (parse_shape _ _ _ _ P)]; cbn; tauto).
  vm_compute in P. inversion P; subst f. cbn [f_rules] in *. eexists. inversion W; subst. inversion L; subst. split; [eassumption|]. split; [assumption|exact B].
Qed.
(** A file without carriage returns of which only the first rule survives, and one whose
    literal lost a carriage return. *)
Example C04_exactly_example : exists f r e, Parse ParseExpr (str "x.rules") (ex_data ++ str "(A x) && a - -b > 0 => x") = Ok f /\
  ~ In cr (ex_data ++ str "(A x) && a - -b > 0 => x") /\ In r (f_rules f) /\ In e (rule_exprs r) /\ ~ smooth e.
Proof.
  eexists _, _, _. split; [vm_compute; reflexivity|]. split; [vm_compute; intuition discriminate|]. split; [right; left; reflexivity|split; [left; reflexivity|cbn; unfold apart; cbn; intuition lia]].
Qed.
Example C04_exactly_arrow : exists f r e v, Parse ParseExpr (str "x.rules") (str "(A x) && a == `=" ++ [cr] ++ str ">` => x" ++ [nl]) = Ok f /\
  (forall r e, In r (f_rules f) -> In e (rule_exprs r) -> smooth e) /\ In r (f_rules f) /\ r_cond r = Some e /\ In v (literals e) /\ has_arrow v.
Proof.
  eexists _, _, _, (str "`=>`"). split; [vm_compute; reflexivity|]. split; [|split; [left; reflexivity|split; [reflexivity|split; [left; reflexivity|exists (str "`"), (str "`"); reflexivity]]]].
  intros r e [<-|[]] H. cbn in H. repeat (destruct H as [<-|H]; [cbn; unfold merges; cbn; unfold apart; cbn; repeat split; try tauto; try (left; lia); try (right; tauto)|]). destruct H.
Qed.
(** Rules that survive although a literal has the arrow: an aux may. *)
Example C03_exactly_example : exists rs, Forall lex_rule rs /\ Forall writable_rule rs /\ Bytes (NFile (mkFile rs)) = Ok (str "(A {f(""=>"")} x) && c => x" ++ [nl]).
Proof.
  assert (exists f, Parse ParseExpr (str "x.rules") (str "(A {f(""=>"")} x) && c => x" ++ [nl]) = Ok f) as [f P] by (eexists; vm_compute; reflexivity).
  exists (f_rules f). destruct f as [rs]. cbn [f_rules]. assert (B : Bytes (NFile (mkFile rs)) = Ok (str "(A {f(""=>"")} x) && c => x" ++ [nl])) by (vm_compute in P; inversion P; subst; vm_compute; reflexivity).
  destruct (proj1 (C03_exactly (str "x.rules") rs) (ex_intro _ _ (conj B P))) as [L W]. auto.
Qed.
