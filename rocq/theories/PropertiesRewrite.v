(** What unsatisfiable scripts are good for (C56, C57).  Vocabulary: SpecRewrite.v. *)
From Verif Require Import Text GoAst Ast Printer SpecPrint PrintFacts Smt SpecTree SpecExpand SpecSmt SmtArith SmtGen SmtRead SmtSem FeatureFacts SpecRewrite RewriteFacts.
From Verif Require Import PropertiesSmt Path Cmd Parse SpecCmd SpecErr SpecRun SpecUtf8 SpecSyntax SpecTrees SynFile SynShape ParseFacts ParseUse CmdFacts CmdRun CmdParse PropertiesCmd Cmd.
From Verif Require Import GoParser.
From Coq Require Import Arith Bool ZArith Lia.

Lemma generate_valid lenient r s : Generate r = Ok s -> Forall (fun x => legal_name lenient x = true) (rule_vars r) ->
  exists G, typable G r /\ read_script lenient s = Some (script_cmds G r) /\ (~ satisfiable (script_cmds G r) <-> rule_valid r).
Proof.
  intros E N. destruct (generate_reads lenient r s E N) as (G & T & R). exists G. split; [exact T|]. split; [exact R|]. apply unsat_iff_valid; apply T.
Qed.

(** * C56: names do not matter
    Renaming variables apart changes neither whether there is a script nor what it
    says: the new script is the old one with the names changed. *)
Theorem C56_renaming :
  forall f r, (forall x y, In x (rule_vars r) -> In y (rule_vars r) -> f x = f y -> x = y) ->
    ((exists s, Generate r = Ok s) <-> (exists s, Generate (renamed f r) = Ok s)) /\
    forall lenient s s', Generate r = Ok s -> Generate (renamed f r) = Ok s' ->
      Forall (fun x => legal_name lenient x = true) (rule_vars r) ->
      Forall (fun x => legal_name lenient (f x) = true) (rule_vars r) ->
      exists cmds, read_script lenient s = Some cmds /\ read_script lenient s' = Some (map (command_renamed f) cmds).
Proof.
  intros f r I. split.
  - rewrite !C38_success_iff_typable. cbn [renamed rule_instance r_cond r_block]. rewrite <- (sexp_renamed f r).
    split; intros (C & B & M & [G T]); repeat (split; [assumption|]).
    + exists (carried f G (rule_vars r)). apply renamed_typed; assumption.
    + destruct T as (t & TM & TR). exists (fun x => G (f x)), t. split; apply typed_renamed; assumption.
  - intros lenient s s' E E' N N'. destruct (generate_reads lenient r s E N) as (G & T & R). exists (script_cmds G r). split; [exact R|].
    destruct T as (C & B & M & T). assert (T' : typable (carried f G (rule_vars r)) (renamed f r)).
    { repeat split; [exact C|exact B|apply sexp_renamed; exact M|apply renamed_typed; assumption]. }
    rewrite (generate_typed _ _ T') in E'. inversion E'; subst. rewrite <- script_renamed by assumption.
    assert (N2 : Forall (fun x => legal_name lenient x = true) (rule_vars (renamed f r))).
    { rewrite rule_vars_renamed. apply Forall_map. exact N'. }
    apply read_script_ok; [apply T'|exact N2|]. eapply typable_no_cr; eauto.
Qed.
Print Assumptions C56_renaming.
Definition up (x : text) : text := x ++ str "1".
Example C56_example : (forall x y, In x (rule_vars ex_sub) -> In y (rule_vars ex_sub) -> up x = up y -> x = y) /\
  Forall (fun x => legal_name false (up x) = true) (rule_vars ex_sub) /\
  exists s, Generate (renamed up ex_sub) = Ok s /\ s <> ex_sub_script.
Proof.
  split; [intros x y _ _ E; apply app_inv_tail in E; exact E|]. split; [repeat constructor|]. eexists. split; [vm_compute; reflexivity|discriminate].
Qed.

(** A rule whose script is unsatisfiable keeps this when its variables are replaced by
    any trees (in particular identified with each other), if it still has a script. *)
Theorem C56_instances :
  forall lenient f r s s' cmds cmds', Generate r = Ok s -> Generate (rule_instance f r) = Ok s' ->
    Forall (fun x => legal_name lenient x = true) (rule_vars r) ->
    Forall (fun x => legal_name lenient x = true) (rule_vars (rule_instance f r)) ->
    read_script lenient s = Some cmds -> read_script lenient s' = Some cmds' ->
    ~ satisfiable cmds -> ~ satisfiable cmds'.
Proof.
  intros lenient f r s s' cmds cmds' E E' N N' R R' U.
  destruct (generate_valid lenient r s E N) as (G & T & R1 & V). destruct (generate_valid lenient _ s' E' N') as (G' & T' & R1' & V').
  assert (cmds = script_cmds G r) as -> by congruence. assert (cmds' = script_cmds G' (rule_instance f r)) as -> by congruence.
  apply V'. apply (instance_valid r f G'); [apply T|apply V; exact U|apply T'].
Qed.
Print Assumptions C56_instances.
Example C56_instances_example :
  exists s, Generate (rule_instance (fun x => if text_eqb x (str "x") then node2 "Xor32" (var "y") (var "z") else var "y") ex_sub) = Ok s.
Proof. eexists. vm_compute. reflexivity. Qed.

(** * C57: rewriting with rules whose scripts are unsatisfiable
    A rule is proved when its script, read by the book, is unsatisfiable; its result
    should not use other variables than its match. *)
Definition proved (r : rule) : Prop :=
  exists s cmds, Generate r = Ok s /\ Forall (fun x => legal_name false x = true) (rule_vars r) /\
    read_script false s = Some cmds /\ ~ satisfiable cmds.
Lemma proved_valid r : proved r -> (exists s, r_match r = SExp s) /\ rule_valid r.
Proof.
  intros (s & cmds & E & N & R & U). destruct (generate_valid false r s E N) as (G & T & R1 & V).
  assert (cmds = script_cmds G r) as -> by congruence. split; [apply T|apply V; exact U].
Qed.
Theorem C57_rewriting :
  forall rules, Forall (fun r => proved r /\ incl (value_vars (r_result r)) (value_vars (r_match r))) rules ->
    forall G v w, rewrites_with rules v w -> same_meaning G v w.
Proof.
  intros rules F G v w R. rewrite Forall_forall in F.
  induction R as [v|r u v w I R _ [IH1 IH2]].
  - split; [auto|]. intros t rho T Hr. destruct (meaning_ok G rho v t Hr T) as (a & E & _). eauto.
  - destruct (F r I) as [P Inc]. destruct (proved_valid r P) as [M V]. destruct (rewrites_same r G u v M V Inc R) as [S1 S2].
    split; [auto|]. intros t rho T Hr. destruct (S2 t rho T Hr) as (a & A1 & A2). destruct (IH2 t rho (S1 t T) Hr) as (b & B1 & B2).
    exists a. split; [exact A1|]. congruence.
Qed.
Print Assumptions C57_rewriting.

(** And no other rules will do. *)
Lemma instance_var v : instance Var v = v.
Proof.
  revert v. fix IH 1. intros [s| |x|]; try reflexivity. destruct s as [b o t ai a args el tr]. cbn [instance s_binding s_op s_type s_auxint s_aux s_args s_ellipsis s_trailing].
  do 2 f_equal. induction args as [|x l IHl]; [reflexivity|]. cbn [map]. rewrite IH, IHl. reflexivity.
Qed.
Theorem C57_exact :
  forall r s cmds, Generate r = Ok s -> Forall (fun x => legal_name false x = true) (rule_vars r) -> read_script false s = Some cmds ->
    incl (value_vars (r_result r)) (value_vars (r_match r)) ->
    (~ satisfiable cmds <-> forall G v w, rewrites r v w -> same_meaning G v w).
Proof.
  intros r s cmds E N R I. destruct (generate_valid false r s E N) as (G & T & R1 & V).
  assert (cmds = script_cmds G r) as -> by congruence. rewrite V. split.
  - intros Va G' v w Rw. apply (rewrites_same r); auto. apply T.
  - intros H. pose proof (H G (r_match r) (r_result r)) as [_ S].
    { pose proof (rw_here r Var) as X. rewrite !instance_var in X. exact X. }
    destruct T as (_ & _ & _ & T). exists G. split; [exact T|]. destruct T as (t & TM & TR). intros rho Hr. exact (S t rho TM Hr).
Qed.
Print Assumptions C57_exact.

(** Witness: ex_sub is proved; it rewrites (Neg32 (Sub32 (Add32 a (Neg32 b)) a)) to (Neg32 (Neg32 b)). *)
Definition node1 (c : string) (a : value) : value := SExp (mkSExpr [] (Opcode (str c)) [] None None [a] false false).
Lemma ex_sub_valid : rule_valid ex_sub.
Proof.
  assert (T : rule_typed (fun _ => TyInt W32) ex_sub).
  { exists (TyInt W32). split; [|apply (typed_var (fun _ => TyInt W32))]. apply (typed_op (fun _ => TyInt W32) _ (IntOp Sub W32)); [repeat split|reflexivity|].
    constructor; [|constructor; [apply (typed_var (fun _ => TyInt W32))|constructor]].
    apply (typed_op (fun _ => TyInt W32) _ (IntOp Add W32)); [repeat split|reflexivity|]. repeat constructor; apply (typed_var (fun _ => TyInt W32)). }
  exists (fun _ => TyInt W32). split; [exact T|]. intros rho Hr. pose proof (Hr (str "x")) as Hx. pose proof (Hr (str "y")) as Hy. cbn in Hx, Hy.
  exists (rho (str "y")). split; [|reflexivity]. cbn. unfold all_some.
  destruct (rho ["x"%char]) as [|x]; [contradiction|]. destruct (rho ["y"%char]) as [|y]; [contradiction|]. cbn. f_equal. f_equal. unfold wrap_int. cbn [bits].
  change (2 ^ (32 - 1))%Z with 2147483648%Z in *. change (2 ^ 32)%Z with 4294967296%Z.
  Z.to_euclidean_division_equations. lia.
Qed.
Example C57_example : proved ex_sub /\ incl (value_vars (r_result ex_sub)) (value_vars (r_match ex_sub)) /\
  rewrites_with [ex_sub] (node1 "Neg32" (node2 "Sub32" (node2 "Add32" (var "a") (node1 "Neg32" (var "b"))) (var "a")))
                         (node1 "Neg32" (node1 "Neg32" (var "b"))).
Proof.
  split; [|split].
  - destruct (generate_valid false ex_sub ex_sub_script ex_sub_generates ex_sub_names) as (G & T & R & V).
    exists ex_sub_script, (script_cmds G ex_sub). split; [exact ex_sub_generates|]. split; [exact ex_sub_names|]. split; [exact R|apply V, ex_sub_valid].
  - intros x [<-|[]]. cbn. auto.
  - apply (rw_step [ex_sub] ex_sub _ (node1 "Neg32" (node1 "Neg32" (var "b")))); [left; reflexivity| |constructor].
    apply (rw_inside ex_sub [] (Opcode (str "Neg32")) [] None None [] _ _ []).
    apply (rw_here ex_sub (fun x => if text_eqb x (str "x") then var "a" else node1 "Neg32" (var "b"))).
Qed.

(** For a run of the command: if all the scripts it wrote are unsatisfiable, rewriting
    with the rules they were made from is sound. *)
Lemma loaded_legal gp disk names rs r lenient : run_rules gp disk names rs -> In r rs ->
  Forall (fun x => ~ taken lenient x) (rule_vars r) -> Forall (fun x => legal_name lenient x = true) (rule_vars r).
Proof.
  intros (k & (files & F & S) & _ & ->) N T. apply in_flat_map in N. destruct N as (r0 & I0 & I). unfold instances in I. apply in_map_iff in I. destruct I as (i & <- & Hi).
  apply (sifted_incl _ _ _ S) in I0. destruct I0 as [I0 Sr]. apply in_concat in I0. destruct I0 as (frs & If & Ir).
  assert (X : exists name, holds gp disk name frs).
  { clear -F If. induction F; [contradiction|]. destruct If as [<-|If]; eauto. }
  destruct X as (name & (b & _ & U & Sf)). assert (P : Parse gp [] b = Ok (mkFile frs)) by (apply parse_source; auto). apply parse_shape in P. cbn [f_rules] in P.
  rewrite Forall_forall in P. assert (L : lex_rule r0) by (apply P; exact Ir). destruct L as (L1 & _ & L2).
  assert (V : rule_vars (rule_inst i r0) = rule_vars r0) by (unfold rule_vars, rule_inst; cbn [r_match r_result]; rewrite !value_vars_inst; reflexivity).
  rewrite V in *. assert (Fx : Forall (fun x => ident x \/ x = str "_") (rule_vars r0)) by (apply Forall_app; split; apply lex_vars; assumption).
  rewrite Forall_forall in *. intros x Hx. apply untaken_legal; auto.
Qed.
Theorem C57_run :
  forall gp disk failing outdir names w w', never_nil gp ->
    run (parse_disk gp disk) Join failing outdir names w = Exit w' None ->
    exists rs written, run_rules gp disk names rs /\ w_files w' = w_files w ++ written /\
      ((forall p s, In (p, s) written -> exists cmds, read_script false s = Some cmds /\ ~ satisfiable cmds) ->
       forall rules, (forall r, In r rules -> In r rs /\ (exists s, Generate r = Ok s) /\
           Forall (fun x => ~ taken false x) (rule_vars r) /\ incl (value_vars (r_result r)) (value_vars (r_match r))) ->
         forall G a b, rewrites_with rules a b -> same_meaning G a b).
Proof.
  intros gp disk failing outdir names w w' W H. destruct (C44_output_files gp disk failing outdir names w w' W H) as (rs & l & R & Wf & _ & E).
  exists rs, l. split; [exact R|]. split; [exact Wf|]. intros A rules Hr G a b Rw.
  apply (C57_rewriting rules); [|exact Rw]. apply Forall_forall. intros r I. destruct (Hr r I) as (Ir & [s Gs] & T & Inc). split; [|exact Inc].
  apply In_nth_error in Ir. destruct Ir as [i Ni]. destruct (proj1 C44_names i) as (ds & D & _).
  destruct (A (Join outdir (ds ++ str ".smt2")) s) as (cmds & Rd & U).
  { apply E. exists i, r, ds. repeat (split; [assumption|]). reflexivity. }
  exists s, cmds. split; [exact Gs|]. split; [|auto]. eapply loaded_legal; eauto. eapply nth_error_In; eauto.
Qed.
Print Assumptions C57_run.
Example C57_run_example : exists w, ex_run no_failure ex_names = Exit w None /\ List.length (w_files w) = 3%nat /\
  Forall (fun x => ~ taken false x) (flat_map rule_vars ex_loaded).
Proof.
  eexists. split; [vm_compute; reflexivity|]. split; [vm_compute; reflexivity|].
  repeat (apply Forall_cons; [intros [H _]; vm_compute in H; intuition discriminate|]); apply Forall_nil.
Qed.
