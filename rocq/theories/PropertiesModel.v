(** C37 and C47, continued: models are counterexamples.  Vocabulary: SpecSmt.v, SpecModel.v,
    SpecRun.v. *)
From Verif Require Import Text GoAst Ast Smt GoParser Path SpecSmt SpecModel SmtArith SmtGen SmtRead SmtSem PropertiesSmt.
From Verif Require Import Parse SpecExpand SpecCmd SpecRun CmdParse Cmd PropertiesCmd.
From Coq Require Import Arith Bool ZArith Lia.
Open Scope Z_scope.

Lemma stands_enc t v u : in_type t v -> (stands t v u <-> u = enc t v).
Proof.
  intros T. split.
  - intros [b|w z n Hz Hn [->| ->]]; cbn; [reflexivity| |]; f_equal; unfold M.
    + symmetry. apply Z.mod_small. exact Hn.
    + rewrite <- (Z.mod_small (z + 2 ^ bits w) (2 ^ bits w)) by exact Hn. rewrite <- Zplus_mod_idemp_r, Z.mod_same, Z.add_0_r by (destruct w; cbn; lia). reflexivity.
  - intros ->. destruct t as [|w], v as [b|z]; cbn in *; try contradiction; constructor; [exact T| |].
    + apply Z.mod_pos_bound. apply M_pos.
    + unfold M. destruct (Z_lt_le_dec z 0) as [N|N].
      * right. rewrite <- (Z.mod_small (z + 2 ^ bits w) (2 ^ bits w)) by (destruct w; cbn in *; lia). rewrite <- (Zplus_mod_idemp_r (2 ^ bits w)), Z.mod_same, Z.add_0_r by (destruct w; cbn; lia). reflexivity.
      * left. apply Z.mod_small. destruct w; cbn in *; lia.
Qed.

(** Between Go values of the variables and solver values that stand for them: one is a
    counterexample of the rule exactly when the other is a model of its script. *)
Theorem C37_models_are_counterexamples :
  forall lenient r s G, Generate r = Ok s ->
    Forall (fun x => legal_name lenient x = true) (rule_vars r) -> rule_typed G r ->
    exists cmds, read_script lenient s = Some cmds /\
      (forall rho sigma, (forall x, in_type (G x) (rho x)) ->
         (forall x, In x (rule_vars r) -> stands (G x) (rho x) (sigma x)) ->
         (solver_model cmds sigma <-> counterexample r rho)) /\
      (forall sigma, solver_model cmds sigma ->
         exists rho, (forall x, in_type (G x) (rho x)) /\ forall x, In x (rule_vars r) -> stands (G x) (rho x) (sigma x)) /\
      (forall rho, (forall x, in_type (G x) (rho x)) ->
         exists sigma, forall x, In x (rule_vars r) -> stands (G x) (rho x) (sigma x)).
Proof.
  intros lenient r s G E Hn HT. destruct (generate_sound r s E) as [G0 T0].
  assert (T : typable G r) by (unfold typable in *; tauto). pose proof (generate_typed G r T) as E'. rewrite E in E'. injection E' as ->.
  exists (script_cmds G r). split; [apply read_script_ok; [exact HT|exact Hn|eapply typable_no_cr; eauto]|]. destruct HT as [t [TM TR]]. split; [|split].
  - intros rho sigma Hrho Hst. assert (He : forall x, In x (rule_vars r) -> sigma x = enc (G x) (rho x)) by (intros x Hx; apply stands_enc; auto).
    destruct (meaning_ok G rho _ _ Hrho TM) as [a [Ea [Ta Sa]]]. destruct (meaning_ok G rho _ _ Hrho TR) as [b [Eb [Tb Sb]]].
    destruct (goal_val sigma (vterm (r_match r)) (vterm (r_result r)) t a b Ta Tb) as [q [Eq Hq]].
    + apply Sa. intros x Hx. apply He. apply in_app_iff. auto.
    + apply Sb. intros x Hx. apply He. apply in_app_iff. auto.
    + split.
      * intros [_ Ha]. exists a, b. split; [exact Ea|]. split; [exact Eb|]. apply Hq. pose proof (Ha _ (proj2 (assert_in G r _) eq_refl)) as Et. rewrite Eq in Et. congruence.
      * intros (a' & b' & Ea' & Eb' & N). assert (a' = a) as -> by congruence. assert (b' = b) as -> by congruence. split.
        -- intros x u Hd. apply decl_in in Hd. destruct Hd as [Hx ->]. rewrite He by exact Hx. apply enc_sort. apply Hrho.
        -- intros p Hp. apply assert_in in Hp. subst p. rewrite Eq. do 2 f_equal. apply Hq. exact N.
  - intros sigma [Hs _]. exists (fun x => if seen x (rule_vars r) then dec_val (G x) (sigma x) else match G x with TyBool => VB false | TyInt _ => VI 0 end).
    assert (D : forall x, In x (rule_vars r) -> sval_of (tsort (G x)) (sigma x)) by (intros x Hx; apply Hs; apply decl_in; auto). split.
    + intros x. destruct (seen x (rule_vars r)) eqn:S; [apply dec_ok; apply D; apply seen_in; exact S|destruct (G x) as [|[]]; cbn; auto; lia].
    + intros x Hx. rewrite (proj2 (seen_in _ _) Hx). destruct (dec_ok _ _ (D x Hx)) as [T1 T2]. apply stands_enc; [exact T1|symmetry; exact T2].
  - intros rho Hrho. exists (fun x => enc (G x) (rho x)). intros x _. apply stands_enc; [apply Hrho|reflexivity].
Qed.
Print Assumptions C37_models_are_counterexamples.

(** The solver's x = 255, y = 1 for  (Sub8 x y) => (Sub8 y x)  is x = -1, y = 1. *)
Example C37_model_example :
  exists s G rho sigma, Generate ex_wrong = Ok s /\ rule_typed G ex_wrong /\ (forall x, in_type (G x) (rho x)) /\
    (forall x, In x (rule_vars ex_wrong) -> stands (G x) (rho x) (sigma x)) /\
    sigma (str "x") = SV 8 255 /\ rho (str "x") = VI (-1) /\ sigma (str "y") = SV 8 1 /\ rho (str "y") = VI 1 /\ counterexample ex_wrong rho.
Proof.
  eexists. exists (fun _ => TyInt W8), (fun x => if text_eqb x (str "x") then VI (-1) else VI 1), (fun x => if text_eqb x (str "x") then SV 8 255 else SV 8 1).
  split; [vm_compute; reflexivity|]. split.
  { exists (TyInt W8). split; apply (typed_op _ _ (IntOp Sub W8)); try (repeat constructor; fail); repeat constructor; apply (typed_var (fun _ => TyInt W8)). }
  split; [intros x; destruct (text_eqb x (str "x")); cbn; lia|]. split.
  { intros x _. destruct (text_eqb x (str "x")); apply (stands_int W8); cbn; lia. }
  repeat (split; [reflexivity|]). exists (VI (-2)), (VI 2). split; [reflexivity|]. split; [reflexivity|]. discriminate.
Qed.

(** What a solver finds for a script that a run of the command wrote is a counterexample of
    an instance of a rule in one of the files. *)
Theorem C47_models_refute_source_rules :
  forall gp disk failing outdir names w w' lenient, never_nil gp ->
    run (parse_disk gp disk) Join failing outdir names w = Exit w' None ->
    exists written, w_files w' = w_files w ++ written /\
      forall p s cmds sigma, In (p, s) written -> read_script lenient s = Some cmds -> solver_model cmds sigma ->
        exists name rs r i, In name names /\ holds gp disk name rs /\ In r rs /\ simple_rule r /\ (i < arity (rule_groups r))%nat /\
          Generate (rule_inst i r) = Ok s /\
          (Forall (fun x => ~ taken lenient x) (rule_vars r) ->
           exists G rho, rule_typed G (rule_inst i r) /\ (forall x, in_type (G x) (rho x)) /\
             (forall x, In x (rule_vars (rule_inst i r)) -> stands (G x) (rho x) (sigma x)) /\ counterexample (rule_inst i r) rho).
Proof.
  intros gp disk failing outdir names w w' lenient W H.
  destruct (C47_scripts_decide_source_rules gp disk failing outdir names w w' lenient W H) as (l & Wf & A & _). exists l. split; [exact Wf|].
  intros p s cmds sigma I Rd M. destruct (A p s I) as (name & rs & r & i & In_ & Hh & Ir & Sr & Hi & G & _). exists name, rs, r, i.
  repeat (split; [assumption|]). intros L. apply (source_legal lenient gp disk name rs r i W Hh Ir) in L. destruct (generate_sound _ _ G) as [G0 T0].
  assert (T : rule_typed G0 (rule_inst i r)) by (unfold typable in *; tauto).
  destruct (C37_models_are_counterexamples lenient _ s G0 G L T) as (cmds' & Rd' & B & C & _). assert (cmds' = cmds) as -> by congruence.
  destruct (C sigma M) as (rho & Hr & St). exists G0, rho. repeat (split; [assumption|]). apply (B rho sigma Hr St). exact M.
Qed.
Print Assumptions C47_models_refute_source_rules.
Example C47_models_example :
  exists w s cmds sigma, run (parse_disk ParseExpr (fun _ => Holds (str "(Sub8 x y) => (Sub8 y x)"))) Join no_failure (str "out") [str "w.rules"] [] = Exit w None /\
    w_files w = [(str "out/0000.smt2", s)] /\ read_script false s = Some cmds /\ solver_model cmds sigma /\ sigma (str "x") = SV 8 255.
Proof.
  eexists _, _, _, (fun x => if text_eqb x (str "x") then SV 8 255 else SV 8 1). split; [vm_compute; reflexivity|]. split; [reflexivity|].
  split; [vm_compute; reflexivity|]. split; [|reflexivity]. split.
  - intros x t H. repeat (destruct H as [H|H]; [try discriminate H; inversion H; subst; cbn; lia|]). destruct H.
  - intros t H. repeat (destruct H as [H|H]; [try discriminate H; inversion H; subst; vm_compute; reflexivity|]). destruct H.
Qed.
