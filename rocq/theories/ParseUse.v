(** Further consequences of the written forms, used by the properties. *)
From Verif Require Import Text GoAst Ast Utf8 GoExpr Peg Grammar Parse GoParser SpecExpand SpecPrint SpecUtf8 SpecSyntax SpecSource SpecTrees SpecTrim PegPoints PegSem PrintFacts
  SynLex SynWords SynExpr SynValue SynRule SynFile SynShape SynPrint SynTrim SynExtend ParseFacts.
From Coq Require Import NArith Arith Bool Lia.

(** ** Parsed trees are proper *)
Lemma op_wf_proper o : op_wf o -> proper_op o.
Proof.
  destruct o as [c|ps|]; cbn [op_wf proper_op]; auto. intros (Ne & F & Ap & N). split.
  - eapply Forall_impl; [|exact F]. intros [c|l|]; cbn [part_wf proper_part]; [auto|intros [L _]; exact L|auto].
  - destruct ps as [|[c|l|] ps]; [congruence| |exists l; left; reflexivity|inversion F; contradiction].
    destruct ps as [|[d|l|] ps]; [destruct (N c eq_refl)|cbn in Ap; contradiction|exists l; right; left; reflexivity|].
    inversion F as [|? ? _ F']; subst. inversion F'; contradiction.
Qed.
Lemma lex_proper_value v : lex_value v -> proper_value v.
Proof.
  induction v as [s IH|e|x|] using value_ind'; cbn [lex_value proper_value]; auto. rewrite fold_and_Forall. intros (_ & Ho & _ & L).
  split; [apply op_wf_proper; exact Ho|]. apply fold_and_Forall. rewrite Forall_forall in *. intros a I. apply IH; auto.
Qed.
Lemma lex_proper r : lex_rule r -> proper_rule r.
Proof. intros (A & _ & B). split; apply lex_proper_value; assumption. Qed.

Section Use.
  Variable gp : text -> res gexpr.
  Lemma parsed_proper fn data f : Parse gp fn data = Ok f -> Forall proper_rule (f_rules f).
  Proof. intros H. apply parse_shape in H. eapply Forall_impl; [|exact H]. cbn. intros r [L _]. apply lex_proper. exact L. Qed.

  (** ** One rule *)
  Lemma single_rule fn t r : utf8 t -> rule_form gp [] t r -> Parse gp fn t = Ok (mkFile [r]).
  Proof.
    intros U R. apply parse_source. split; [exact U|]. cbn [f_rules]. rewrite <- (app_nil_r t).
    apply (source_cons gp [] t [] [] r []); [constructor|constructor|exact R|constructor].
  Qed.
  Lemma value_end_nil res : value_end res [].
  Proof. split; [intros _; split; [nextchar|intros; discriminate]|intros _; nextchar]. Qed.
End Use.

(** ** Answers that matter *)
Section Answers.
  Variables gp gp' : text -> res gexpr.
  Hypothesis more : forall t e, reads gp t e -> reads gp' t e.
  Lemma parse_mono fn data f : Parse gp fn data = Ok f -> Parse gp' fn data = Ok f.
  Proof. rewrite !parse_source. intros [U S]. split; [exact U|]. eapply source_mono; eauto. Qed.
End Answers.

(** Another answer for one text. *)
Definition answer (gp : text -> res gexpr) (t : text) (e : gexpr) (x : text) : res gexpr :=
  if text_eqb x t then Ok e else gp x.
Lemma answer_more gp t e : (forall e', ~ reads gp t e') -> forall x e', reads gp x e' -> reads (answer gp t e) x e'.
Proof.
  intros N x e' R. unfold answer, reads in *. destruct (text_eqb x t) eqn:E; [apply text_eqb_eq in E; subst; exfalso; eapply N; exact R|exact R].
Qed.
Lemma answer_reads gp t e : supported e -> reads (answer gp t e) t (bare e).
Proof. intros S. exists e. unfold answer. rewrite text_eqb_refl. auto. Qed.

(** ** Conditions *)
Section Cond.
  Variable gp : text -> res gexpr.
  Lemma cond_reads fn m vm c res vr e : value_form gp m vm -> value_form gp res vr -> utf8 (cond_source m c res) -> free_cond c ->
    reads gp (trim_space (newlines_to_spaces c)) e ->
    Parse gp fn (cond_source m c res) = Ok (mkFile [mkRule vm (Some e) [] vr]).
  Proof.
    intros Vm Vr U [(d & t & -> & Nb & Ns) Na] R. apply reads_cond_iff in R. apply single_rule; [exact U|].
    change (cond_source m (d :: t) res) with (m ++ (str " " ++ str "&&" ++ str " ") ++ (d :: t) ++ str " " ++ str "=>" ++ str " " ++ [] ++ [] ++ res).
    rewrite (app_assoc _ (d :: t)). replace ((str " " ++ str "&&" ++ str " ") ++ d :: t) with (str " " ++ str "&&" ++ str " " ++ d :: t) by reflexivity.
    apply rule_intro; auto; try apply ws1_sp; try constructor; try apply value_end_nil.
    eapply cond_some with (b := sp); try apply ws1_sp; eauto.
    - discriminate.
    - cbn [app]. apply no_skip_char; assumption.
    - intros x y E. destruct (Na x y E).
    - reflexivity.
    - left. reflexivity.
  Qed.
  Lemma value_mono gp' t v : (forall t e, reads gp t e -> reads gp' t e) -> value_form gp t v -> value_form gp' t v.
  Proof. intros M V. exact (proj1 (values_mono gp gp' M) t v V). Qed.
End Cond.
Lemma reads_dec gp t : (exists e, reads gp t e) \/ forall e, ~ reads gp t e.
Proof.
  unfold reads. destruct (gp t) as [raw|m|m]; [|right; intros e (r & E & _); discriminate..].
  destruct (GoExpr.unsupported raw) eqn:U.
  - right. intros e (r & E & S & _). inversion E; subst. apply unsupported_spec in S. congruence.
  - apply unsupported_spec in U. left. exists (bare raw), raw. auto.
Qed.
Lemma cond_iff gp fn m vm c res vr f : value_form gp m vm -> value_form gp res vr -> utf8 (cond_source m c res) -> free_cond c ->
  Parse gp fn (cond_source m c res) = Ok f <-> exists t e, trimmed (one_line c) t /\ reads gp t e /\ f = mkFile [mkRule vm (Some e) [] vr].
Proof.
  intros Vm Vr U Fc. change (one_line c) with (newlines_to_spaces c). set (t0 := trim_space (newlines_to_spaces c)).
  assert (T0 : trimmed (newlines_to_spaces c) t0) by apply trim_space_trimmed.
  split.
  - intros H. destruct (reads_dec gp t0) as [[e R]|N].
    + exists t0, e. split; [exact T0|]. split; [exact R|]. rewrite (cond_reads gp fn m vm c res vr e Vm Vr U Fc R) in H. inversion H. reflexivity.
    + exfalso.
      assert (P : forall n, f = mkFile [mkRule vm (Some (GIdent 0 n)) [] vr]).
      { intros n. pose proof (answer_more gp t0 (GIdent 0 n) N) as M. pose proof (parse_mono _ _ M fn _ _ H) as P.
        rewrite (cond_reads _ fn m vm c res vr (GIdent 0 n) (value_mono _ _ _ _ M Vm) (value_mono _ _ _ _ M Vr) U Fc (answer_reads gp t0 (GIdent 0 n) I)) in P.
        inversion P. reflexivity. }
      pose proof (P (str "a")) as P1. rewrite (P (str "b")) in P1. inversion P1.
  - intros (t & e & T & R & ->). rewrite (trimmed_unique _ _ _ T T0) in R. apply cond_reads; assumption.
Qed.

(** ** The reference Go parser *)
Lemma span_all (p : ascii -> bool) t : Forall (fun c => p c = true) t -> GoParser.span p t = (t, []).
Proof. induction 1 as [|c t H _ IH]; [reflexivity|]. cbn. rewrite H, IH. reflexivity. Qed.
Lemma ParseExpr_no_comment : no_comment_expr ParseExpr.
Proof.
  intros t e N. unfold ParseExpr, scan. change (has_prefix bom (str "//" ++ t)) with false. unfold scan_from. cbv iota.
  destruct (source_chars _ _); [|discriminate]. cbn.
  assert (F : Forall (fun c => negb (ch c nl) = true) t).
  { apply Forall_forall. intros c I. unfold ch. destruct (ascii_dec c nl) as [->|_]; [contradiction|reflexivity]. }
  rewrite (span_all _ t F). cbn. discriminate.
Qed.
