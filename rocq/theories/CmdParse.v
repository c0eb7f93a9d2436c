(** The command on parsed files. *)
From Verif Require Import Text GoAst Ast Walk Expand Printer Parse GoParser Smt Cmd Path SpecTree TreeFacts SpecExpand ExpandFacts
  SpecPrint PrintFacts SpecSmt SpecUtf8 SpecSyntax SpecTrees SpecCmd SpecErr SpecRun SynFile SynShape ParseFacts ParseUse CmdFacts CmdRun ErrFacts.
From Coq Require Import NArith Arith Lia Bool.

(** ** Expressions without nil *)
Lemma no_nil_bad e : no_nil e -> supported e -> go_bad e = [].
Proof.
  induction e using gexpr_ind'; cbn [no_nil supported go_bad]; auto; try contradiction.
  - intros [A B] [C D]. rewrite IHe1, IHe2; auto.
  - intros [A B] [C D]. rewrite IHe by assumption. cbn [app]. rewrite fold_and_Forall in B, D.
    induction H as [|x0 l0 Hx F IH]; [reflexivity|]. inversion B; subst. inversion D; subst. cbn [flat_map]. rewrite Hx, IH; auto.
Qed.
Lemma no_nil_bare e : no_nil e -> no_nil (SpecSyntax.bare e).
Proof.
  induction e using gexpr_ind'; cbn [no_nil SpecSyntax.bare]; auto; try tauto.
  rewrite !fold_and_Forall. intros [A B]. split; auto. rewrite Forall_map. rewrite Forall_forall in *. auto.
Qed.

Section Good.
  Variable gp : text -> res gexpr.
  Hypothesis whole : never_nil gp.
  Lemma op_good o : op_wf o -> op_bad o = [].
  Proof.
    destruct o as [c|ps|]; cbn [op_wf op_bad]; auto; [|contradiction]. intros (_ & F & _). induction F as [|p ps Hp F IH]; [reflexivity|].
    cbn [flat_map]. rewrite IH. destruct p; [reflexivity..|contradiction Hp].
  Qed.
  Lemma value_good v : lex_value v -> Forall (fun e => go_bad e = []) (value_exprs v) -> value_bad v = [].
  Proof.
    induction v as [s IH|e|x|] using value_ind'; cbn [lex_value value_exprs value_bad]; auto.
    - rewrite fold_and_Forall. intros (_ & Ho & _ & L) F. apply Forall_app in F. destruct F as [F1 F]. apply Forall_app in F. destruct F as [F2 F].
      rewrite op_good by exact Ho. cbn [app].
      assert (O : forall o, Forall (fun e => go_bad e = []) (given o) -> opt_bad o = []) by (intros [e|] X; [inversion X; assumption|reflexivity]).
      rewrite !O by assumption. cbn [app]. clear O F1 F2 Ho. induction IH as [|a l Ha IHf IHl]; [reflexivity|]. inversion L; subst. cbn [flat_map] in *.
      apply Forall_app in F. destruct F. rewrite Ha, IHl; auto.
    - intros _ F. inversion F; assumption.
    - contradiction.
  Qed.
  Lemma parsed_good fn data f : Parse gp fn data = Ok f -> Forall good_rule (f_rules f).
  Proof.
    intros H. apply parse_shape in H. eapply Forall_impl; [|exact H]. cbn. intros r [L O]. split; [apply lex_proper; exact L|].
    assert (F : Forall (fun e => go_bad e = []) (rule_exprs r)).
    { eapply Forall_impl; [|exact O]. cbn. intros e (t & _ & G). assert (exists u, reads gp u e) as (u & raw & G' & S & ->) by (destruct G as [G|(u & _ & G)]; eauto).
      apply no_nil_bad; [|apply supported_bare; exact S]. apply no_nil_bare. exact (whole _ _ G'). }
    unfold rule_exprs in F. apply Forall_app in F. destruct F as [F1 F]. apply Forall_app in F. destruct F as [F2 F3]. destruct L as (L1 & _ & L2).
    unfold rule_bad. rewrite !value_good by assumption. destruct (r_cond r); [inversion F2; subst; cbn [opt_bad]|cbn [opt_bad]; reflexivity].
    match goal with X : go_bad _ = [] |- _ => rewrite X end. reflexivity.
  Qed.

  Variable disk : text -> on_disk.
  Lemma disk_no_panic n m : parse_disk gp disk n <> Panic m.
  Proof.
    unfold parse_disk, File_, Reader. destruct (disk n) as [e|e|b e|b]; try discriminate; destruct (parse_total gp n b) as [[f H]|[m' H]]; rewrite H; discriminate.
  Qed.
  Lemma disk_ok n f : parse_disk gp disk n = Ok f <-> holds gp disk n (f_rules f).
  Proof.
    unfold parse_disk, File_, Reader, holds. destruct (disk n) as [e|e|b e|b].
    - split; [discriminate|intros (b & H & _); discriminate].
    - split; [discriminate|intros (b & H & _); discriminate].
    - destruct (parse_total gp n b) as [[g H]|[m H]]; rewrite H; (split; [discriminate|intros (x & E & _); discriminate]).
    - rewrite parse_source. split; [intros [A B]; eauto|intros (x & E & A & B)]. inversion E; subst. auto.
  Qed.
  Lemma disk_good n f : parse_disk gp disk n = Ok f -> Forall good_rule (f_rules f).
  Proof.
    intros H. pose proof H as H'. apply disk_ok in H. destruct H as (b & E & U & S). unfold parse_disk in H'. rewrite E in H'. exact (parsed_good _ _ _ H').
  Qed.
  Lemma disk_err n e : parse_disk gp disk n = Err e <->
    disk n = OpenFails e \/ disk n = ReadFails e \/ (exists b, disk n = CloseFails b e) \/ (exists b, disk n = Holds b /\ Parse gp n b = Err e).
  Proof.
    unfold parse_disk, File_, Reader. destruct (disk n) as [x|x|b x|b].
    - split; [intros H; inversion H; auto|]. intros [H|[H|[(b & H)|(b & H & _)]]]; inversion H; reflexivity.
    - split; [intros H; inversion H; auto|]. intros [H|[H|[(b & H)|(b & H & _)]]]; inversion H; reflexivity.
    - destruct (parse_total gp n b) as [[g H]|[m H]]; rewrite H; (split; [intros X; inversion X; eauto|]); intros [X|[X|[(b' & X)|(b' & X & _)]]]; inversion X; reflexivity.
    - split; [intros H; eauto 6|]. intros [X|[X|[(b' & X)|(b' & X & H)]]]; inversion X; subst; assumption.
  Qed.

  Lemma loaded_simple ns k : loaded (parse_disk gp disk) ns k <-> simple_of gp disk ns k.
  Proof.
    unfold loaded, simple_of. split.
    - intros (fs & F & S). exists (map f_rules fs). split.
      + clear S. induction F; cbn; constructor; auto. apply disk_ok. assumption.
      + rewrite <- flat_map_concat_map. exact S.
    - intros (fs & F & S). exists (map mkFile fs). split.
      + clear S. induction F; cbn; constructor; auto. apply disk_ok. assumption.
      + rewrite flat_map_concat_map, map_map, map_id. exact S.
  Qed.

  (** ** The log *)
  Lemma dec_decimal n : decimal n (dec n).
  Proof.
    destruct (dec_digits n) as (d & E & Ne & V & Nm). unfold decimal. rewrite E. split; [apply digits_digit|]. split; [rewrite number_digits; exact V|].
    split; [destruct d; [contradiction|discriminate..]|]. intros H Z. apply H. apply digits_unorm_head; assumption.
  Qed.
  Lemma parse_all_log ns : forall w rs, snd (parse_all (parse_disk gp disk) ns w) = Ok rs ->
    exists files log, Forall2 (holds gp disk) ns files /\ rs = List.concat files /\ file_log ns files log /\
      w_log (fst (parse_all (parse_disk gp disk) ns w)) = w_log w ++ log.
  Proof.
    induction ns as [|n ns IH]; intros w rs; cbn [parse_all].
    - intros H. inversion H; subst. exists [], []. rewrite app_nil_r. repeat split; constructor.
    - destruct (parse_disk gp disk n) as [f|e|m] eqn:E; [|discriminate..]. set (w1 := logf _ w). specialize (IH w1).
      destruct (parse_all (parse_disk gp disk) ns w1) as [w2 r] eqn:P. cbn [fst snd] in *. destruct r as [rs'|e|m]; cbn [bind]; try discriminate.
      intros H. inversion H; subst. destruct (IH rs' eq_refl) as (files & log & F & -> & L & W). exists (f_rules f :: files).
      eexists (_ :: log). split; [constructor; [apply disk_ok; exact E|exact F]|]. split; [reflexivity|]. split; [constructor; [apply dec_decimal|exact L]|].
      rewrite W. unfold w1. rewrite log_logf. rewrite <- app_assoc. reflexivity.
  Qed.
  Lemma load_ok ns w f : snd (load (parse_disk gp disk) ns w) = Ok f ->
    exists files k log, Forall2 (holds gp disk) ns files /\ sifted simple_rule (List.concat files) k /\ Forall (fun r => uniform (rule_groups r)) k /\
      f_rules f = flat_map instances k /\ load_log ns files k (f_rules f) log /\ w_log (fst (load (parse_disk gp disk) ns w)) = w_log w ++ log.
  Proof.
    intros H. destruct (load_spec (parse_disk gp disk) disk_no_panic disk_good ns w) as [_ L]. rewrite H in L. destruct L as (k & L & U & I).
    unfold load in H |- *. pose proof (parse_all_log ns w) as PL. destruct (parse_all (parse_disk gp disk) ns w) as [w1 r]. cbn [fst snd] in PL.
    destruct r as [rs|e|m]; [|discriminate H..]. destruct (PL rs eq_refl) as (files & log & F & -> & FL & W). clear PL.
    assert (E : exists g, L = L) by eauto. clear E. apply loaded_simple in L. destruct L as (files' & F' & S).
    assert (files' = files) as ->.
    { clear -F F'. revert files' F'. induction F; intros files' F'; inversion F'; subst; [reflexivity|]. f_equal; [|auto].
      destruct H as (b & E & U & R), H2 as (b' & E' & U' & R'). assert (b' = b) as -> by congruence.
      assert (A : Parse gp [] b = Ok (mkFile y)) by (apply parse_source; auto). assert (B : Parse gp [] b = Ok (mkFile y0)) by (apply parse_source; auto). congruence. }
    assert (Hp : Forall proper_rule (List.concat files)).
    { clear -F whole. induction F; [constructor|]. cbn [List.concat]. apply Forall_app. split; [|assumption].
      assert (parse_disk gp disk x = Ok (mkFile y)) by (apply disk_ok; assumption). apply disk_good in H0. eapply Forall_impl; [|exact H0]. intros r [A _]. exact A. }
    destruct (filter_sifted _ Hp) as (k' & Fk & S'). assert (k' = k) as -> by (eapply sifted_fun; eauto). rewrite Fk in *.
    destruct (ExpandAlternates {| f_rules := k |}) as [[f' [e|]]|e|m]; cbn [fst snd] in *; try discriminate H. inversion H; subst f'.
    exists files, k. eexists. repeat (split; [eassumption|]). split; [|rewrite ?log_logf, W, <- !app_assoc; reflexivity].
    unfold load_log. exists log, (dec (List.length (List.concat files))), (dec (List.length k)), (dec (List.length (f_rules f))).
    repeat (split; [first [exact FL|apply dec_decimal]|]). reflexivity.
  Qed.
  Lemma holds_fun n a b : holds gp disk n a -> holds gp disk n b -> a = b.
  Proof.
    intros (x & E & U & R) (y & E' & U' & R'). assert (y = x) as -> by congruence.
    assert (A : Parse gp [] x = Ok (mkFile a)) by (apply parse_source; auto). assert (B : Parse gp [] x = Ok (mkFile b)) by (apply parse_source; auto). congruence.
  Qed.
End Good.

Lemma line_lines log : lines log (List.concat (map log_line log)).
Proof.
  induction log as [|m log IH]; [constructor|]. cbn [map List.concat]. unfold log_line.
  destruct (rev m) as [|c u] eqn:E.
  - rewrite <- !app_assoc. apply lines_open; [|exact IH]. intros m' ->. rewrite rev_app_distr in E. discriminate.
  - apply (f_equal (@rev _)) in E. rewrite rev_involutive in E. cbn [rev] in E. subst m. destruct (ascii_dec c nl) as [->|N].
    + rewrite app_nil_r, <- !app_assoc. apply lines_ended. exact IH.
    + rewrite <- (app_assoc (str "ssarules: ")). rewrite <- (app_assoc (rev u ++ [c])). apply lines_open; [|exact IH]. intros m' X. apply app_inj_tail in X. destruct X as [_ X]. congruence.
Qed.

(** ** The reference Go parser returns no nil *)
Lemma args_no_nil a l : no_nil a -> fold_right (fun a P => no_nil a /\ P) True l -> fold_right (fun a P => no_nil a /\ P) True (a :: l).
Proof. cbn. auto. Qed.
Lemma gp_no_nil fuel :
  (forall p ts e r, gp_binary fuel p ts = Ok (e, r) -> no_nil e) /\
  (forall p x ts e r, no_nil x -> gp_binloop fuel p x ts = Ok (e, r) -> no_nil e) /\
  (forall ts e r, gp_unary fuel ts = Ok (e, r) -> no_nil e) /\
  (forall x ts e r, no_nil x -> gp_primary fuel x ts = Ok (e, r) -> no_nil e) /\
  (forall ts a el q r, gp_args fuel ts = Ok (a, el, q, r) -> fold_right (fun a P => no_nil a /\ P) True a).
Proof.
  induction fuel as [|n (IB & IL & IU & IP & IA)]; [repeat split; intros; discriminate|]. repeat split.
  - intros p ts e r. cbn [gp_binary]. destruct (gp_unary n ts) as [[x ts']| |] eqn:E; cbn [bind]; try discriminate. intros H. eapply IL; [|exact H]. eapply IU; eauto.
  - intros p x ts e r Hx. cbn [gp_binloop]. destruct ts as [|[[| |o| | | | | | |] q] ts']; try (intros H; inversion H; subst; assumption).
    destruct ((0 <? tok_prec o) && (p <=? tok_prec o))%nat; [|intros H; inversion H; subst; assumption].
    destruct (gp_binary n (S (tok_prec o)) ts') as [[y ts'']| |] eqn:E; cbn [bind]; try discriminate. intros H. eapply IL; [|exact H]. split; [exact Hx|]. eapply IB; eauto.
  - intros ts e r. cbn [gp_unary]. destruct ts as [|[[x|k v|o| | | | | | |] q] ts']; try discriminate.
    + intros H. eapply IP; [|exact H]. exact I.
    + intros H. eapply IP; [|exact H]. exact I.
    + assert (X : forall F, (forall x, no_nil x -> no_nil (F x)) -> (let* xt := gp_unary n ts' in let '(x, ts'') := xt in Ok (F x, ts'')) = Ok (e, r) -> no_nil e).
      { intros F HF. destruct (gp_unary n ts') as [[x ts'']| |] eqn:E; cbn [bind]; try discriminate. intros H. inversion H; subst. apply HF. eapply IU; eauto. }
      destruct (unary_op o); [apply (X (GUnary q o)); auto|]. destruct o; try discriminate. apply (X (GStar q)); auto.
    + destruct (gp_binary n 1 ts') as [[x ts'']| |] eqn:E; cbn [bind]; try discriminate. destruct ts'' as [|[[| | | | | | | | |] q'] ts3]; try discriminate.
      intros H. eapply IP; [|exact H]. cbn. eapply IB; eauto.
  - intros x ts e r Hx. cbn [gp_primary]. destruct ts as [|[[y|k v|o| | | | | | |] q] ts']; try (intros H; inversion H; subst; assumption).
    + destruct (gp_args n ts') as [[[[a el] q'] ts'']| |] eqn:E; cbn [bind]; try discriminate. intros H. eapply IP; [|exact H]. split; [exact Hx|]. eapply IA; eauto.
    + destruct ts' as [|[[y|k v|o| | | | | | |] q'] ts'']; try discriminate. intros H. eapply IP; [|exact H]. exact Hx.
  - intros ts a el q r. cbn [gp_args].
    assert (X : (let* at_ := gp_binary n 1 ts in let '(a, ts') := at_ in
          match ts' with
          | (TEllipsis, e) :: (TRParen, q) :: ts'' => Ok ([a], e, q, ts'')
          | (TEllipsis, e) :: (TComma, _) :: (TRParen, q) :: ts'' => Ok ([a], e, q, ts'')
          | (TComma, _) :: ts'' =>
              let* r := gp_args n ts'' in
              let '(args, el, q, ts3) := r in Ok (a :: args, el, q, ts3)
          | (TRParen, q) :: ts'' => Ok ([a], NoPos, q, ts'')
          | _ => syntax_error
          end) = Ok (a, el, q, r) -> fold_right (fun a P => no_nil a /\ P) True a).
    { destruct (gp_binary n 1 ts) as [[x ts']| |] eqn:E; cbn [bind]; try discriminate. pose proof (IB _ _ _ _ E) as Nx. intros H.
      repeat match type of H with
      | context [match ?l with [] => _ | _ :: _ => _ end] => is_var l; destruct l as [|[? ?] ?]; try discriminate H
      | context [match ?k with TIdent _ => _ | _ => _ end] => is_var k; destruct k; try discriminate H
      end; try (inversion H; subst; cbn; auto; fail).
      all: match type of H with context[gp_args ?m ?l] => destruct (gp_args m l) as [[[[b el'] q'] ts'']| |] eqn:G end; cbn [bind] in H; try discriminate H; inversion H; subst; cbn; (split; [exact Nx|]); eapply IA; eauto. }
    destruct ts as [|[[y|k v|o| | | | | | |] q'] ts']; try exact X. intros H. inversion H; subst. exact I.
Qed.
Lemma ParseExpr_never_nil : never_nil ParseExpr.
Proof.
  intros t e. unfold ParseExpr. destruct (scan t) as [ts| |]; cbn [bind]; try discriminate.
  destruct (gp_binary _ 1 ts) as [[x r]| |] eqn:E; cbn [bind]; try discriminate. apply gp_no_nil in E. intros H.
  destruct r as [|[[| | | | | | | | |] ?] [|]]; inversion H; subst; assumption.
Qed.
