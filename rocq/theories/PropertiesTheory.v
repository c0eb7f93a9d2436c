(** C75: the rules whose scripts are unsatisfiable are an equational theory.  Vocabulary:
    SpecSmt.v; [proved] is in PropertiesRewrite.v. *)
From Verif Require Import Text GoAst Ast Smt SpecTree SpecSmt SmtArith SmtGen SmtSem SpecRewrite RewriteFacts PropertiesSmt PropertiesRewrite.
From Coq Require Import Arith Bool ZArith Lia.

(** The rule [a => b], with neither condition nor block. *)
Definition eqn (a b : value) : rule := mkRule a None [] b.

Lemma params_result o : Forall (eq (result o)) (params o).
Proof. destruct o as [[] w|[]]; repeat constructor. Qed.
(** All variables of a tree have the type of the tree. *)
Lemma typed_one G v t : typed G v t -> typed (fun _ => t) v t /\ forall x, In x (value_vars v) -> G x = t.
Proof.
  intros T. induction T as [x|s o B O A IH] using typed_ind'.
  - split; [apply (typed_var (fun _ => G x))|]. intros y [<-|[]]. reflexivity.
  - assert (P : Forall2 (fun v t => typed (fun _ => result o) v t /\ (forall x, In x (value_vars v) -> G x = result o)) (s_args s) (params o)).
    { pose proof (params_result o) as R. clear A B O. induction IH as [|v t vs ts [H1 H2] IH1 IH2]; constructor; inversion R as [|? ? E R']; subst; auto. }
    split.
    + apply typed_op; auto. clear -P. induction P as [|v t vs ts [H _] P IH]; constructor; auto.
    + intros x I. cbn in I. apply in_flat_map in I. destruct I as (a & Ia & I). clear -P Ia I.
      induction P as [|v t vs ts [_ H] P IH]; [destruct Ia|]. destruct Ia as [->|Ia]; [apply H; exact I|auto].
Qed.
Lemma meaning_agree rho rho' v : (forall x, In x (value_vars v) -> rho x = rho' x) -> meaning rho v = meaning rho' v.
Proof.
  intros H. rewrite <- (instance_var v) at 1. apply meaning_instance. intros x I. cbn. rewrite (H x I). reflexivity.
Qed.

(** A valid rule is valid when all variables have the type of its sides. *)
Definition valid_at (t : ty) (a b : value) : Prop :=
  typed (fun _ => t) a t /\ typed (fun _ => t) b t /\
  forall rho, (forall x, in_type t (rho x)) -> exists c, meaning rho a = Some c /\ meaning rho b = Some c.
Lemma ty_dec (a b : ty) : {a = b} + {a <> b}.
Proof. repeat decide equality. Qed.
Lemma valid_one r : rule_valid r <-> exists t, valid_at t (r_match r) (r_result r).
Proof.
  split.
  - intros (G & (t & TM & TR) & V). destruct (typed_one _ _ _ TM) as [TM' GM], (typed_one _ _ _ TR) as [TR' GR].
    exists t. split; [exact TM'|]. split; [exact TR'|]. intros rho R.
    destruct (V (fun x => if ty_dec (G x) t then rho x else zero (G x))) as (c & C1 & C2).
    { intros x. destruct (ty_dec (G x) t) as [->|]; [apply R|apply zero_ok]. }
    exists c. split; [rewrite <- C1|rewrite <- C2]; apply meaning_agree; intros x I.
    + destruct (ty_dec (G x) t) as [|N]; [reflexivity|]. elim N. auto.
    + destruct (ty_dec (G x) t) as [|N]; [reflexivity|]. elim N. auto.
  - intros (t & TM & TR & V). exists (fun _ => t). split; [exists t; auto|exact V].
Qed.

(** * C75: the proved rules are the valid ones *)
Theorem C75_proved_iff :
  forall r, proved r <->
    (r_cond r = None /\ r_block r = [] /\ (exists s, r_match r = SExp s) /\
     Forall (fun x => legal_name false x = true) (rule_vars r) /\ rule_valid r).
Proof.
  intros r. split.
  - intros P. destruct (proved_valid r P) as [M V]. destruct P as (s & cmds & E & N & R & U).
    destruct (proj1 (C38_success_iff_typable r) (ex_intro _ s E)) as (C & B & _). auto.
  - intros (C & B & M & N & V). pose proof V as (G & T & _).
    destruct (proj2 (C38_success_iff_typable r)) as [s E]; [repeat split; eauto|].
    destruct (C37_unsat_iff_valid false r s E N) as (cmds & R & U). exists s, cmds. repeat split; auto. apply U. exact V.
Qed.
Print Assumptions C75_proved_iff.
Example C75_proved_example : proved ex_sub.
Proof. apply C57_example. Qed.

Lemma proved_eqn a b : proved (eqn a b) <->
  ((exists s, a = SExp s) /\ Forall (fun x => legal_name false x = true) (value_vars a ++ value_vars b) /\ exists t, valid_at t a b).
Proof. rewrite C75_proved_iff, valid_one. unfold rule_vars. cbn [eqn r_cond r_block r_match r_result]. tauto. Qed.

(** Reflexive, on the trees that have scripts at all. *)
Theorem C75_reflexive :
  forall a, Forall (fun x => legal_name false x = true) (value_vars a) ->
    (proved (eqn a a) <-> exists s, Generate (eqn a a) = Ok s).
Proof.
  intros a N. split.
  - intros (s & _ & E & _). eauto.
  - intros G. apply C38_success_iff_typable in G. cbn [eqn r_cond r_block r_match r_result] in G. destruct G as (_ & _ & M & G & t & T & _).
    apply proved_eqn. split; [exact M|]. split; [apply Forall_app; auto|]. exists t. destruct (typed_one _ _ _ T) as [T' _].
    split; [exact T'|]. split; [exact T'|]. intros rho R. destruct (meaning_ok (fun _ => t) rho a t R T') as (c & E & _). eauto.
Qed.
Print Assumptions C75_reflexive.

(** Symmetric: the script of the rule turned round is unsatisfiable as well (there is one
    unless the rule's result is a lone variable). *)
Theorem C75_symmetric :
  forall a b, proved (eqn a b) -> (proved (eqn b a) <-> exists s, b = SExp s).
Proof.
  intros a b P. apply proved_eqn in P. destruct P as (M & N & t & TA & TB & V). rewrite proved_eqn. split; [tauto|].
  intros MB. split; [exact MB|]. split; [apply Forall_app; apply Forall_app in N; tauto|]. exists t. split; [exact TB|]. split; [exact TA|].
  intros rho R. destruct (V rho R) as (c & C1 & C2). eauto.
Qed.
Print Assumptions C75_symmetric.

(** Transitive. *)
Theorem C75_transitive :
  forall a b c, proved (eqn a b) -> proved (eqn b c) -> proved (eqn a c).
Proof.
  intros a b c P Q. apply proved_eqn in P, Q. destruct P as (M & N & t & TA & TB & V), Q as ([s ->] & N' & t' & TB' & TC & V').
  apply proved_eqn. split; [exact M|]. split; [apply Forall_app; apply Forall_app in N; apply Forall_app in N'; tauto|].
  assert (t' = t) as ->. { inversion TB as [|s1 o1 B1 O1 F1]; inversion TB' as [|s2 o2 B2 O2 F2]; subst. f_equal. apply opcode_inj. congruence. }
  exists t. split; [exact TA|]. split; [exact TC|]. intros rho R.
  destruct (V rho R) as (x & X1 & X2), (V' rho R) as (y & Y1 & Y2). exists x. split; [exact X1|]. congruence.
Qed.
Print Assumptions C75_transitive.

(** Closed under rewriting: whatever proved rules lead to from a tree that has a script is
    a proved rule itself. *)
Lemma vars_of_instance f v x : In x (value_vars (instance f v)) <-> exists y, In y (value_vars v) /\ In x (value_vars (f y)).
Proof.
  revert v. fix IH 1. intros [s| |y|]; cbn [instance value_vars].
  - destruct s as [? ? ? ? ? args ? ?]. cbn [s_args]. rewrite in_flat_map. split.
    + intros (u & U & I). induction args as [|a l IHl]; [destruct U|]. destruct U as [<-|U].
      * apply IH in I. destruct I as (y & Y & I). exists y. split; [apply in_app_iff; left; exact Y|exact I].
      * destruct (IHl U) as (y & Y & I'). exists y. split; [apply in_app_iff; right; exact Y|exact I'].
    + intros (y & Y & I). induction args as [|a l IHl]; [destruct Y|]. cbn [flat_map] in Y. apply in_app_iff in Y. destruct Y as [Y|Y].
      * exists (instance f a). split; [left; reflexivity|]. apply IH. eauto.
      * destruct (IHl Y) as (u & U & I'). exists u. split; [right; exact U|exact I'].
  - split; [intros []|intros (y & [] & _)].
  - split; [intros I; exists y; split; [left; reflexivity|exact I]|intros (z & [<-|[]] & I); exact I].
  - split; [intros []|intros (y & [] & _)].
Qed.
Lemma rewrites_vars r v w : incl (value_vars (r_result r)) (value_vars (r_match r)) -> rewrites r v w -> incl (value_vars w) (value_vars v).
Proof.
  intros Inc R. induction R as [f|b o t ai a pre x y post el tr R IH]; intros z I.
  - apply vars_of_instance in I. destruct I as (u & U & I). apply vars_of_instance. eauto.
  - cbn [value_vars s_args] in *. rewrite in_flat_map in *. destruct I as (u & U & I). apply in_app_iff in U. destruct U as [U|[<-|U]].
    + exists u. split; [apply in_app_iff; auto|exact I].
    + exists x. split; [apply in_app_iff; right; left; reflexivity|]. apply IH. exact I.
    + exists u. split; [apply in_app_iff; right; right; exact U|exact I].
Qed.
Lemma rewrites_with_vars rules v w : Forall (fun r => proved r /\ incl (value_vars (r_result r)) (value_vars (r_match r))) rules ->
  rewrites_with rules v w -> incl (value_vars w) (value_vars v).
Proof.
  intros F R. rewrite Forall_forall in F. induction R as [v|r u v w I R _ IH]; [apply incl_refl|].
  intros x X. apply (rewrites_vars r u v); [apply (F r I)|exact R|]. apply IH. exact X.
Qed.
Theorem C75_rewriting :
  forall rules, Forall (fun r => proved r /\ incl (value_vars (r_result r)) (value_vars (r_match r))) rules ->
    forall a b, rewrites_with rules a b ->
      (exists s, Generate (eqn a a) = Ok s) -> Forall (fun x => legal_name false x = true) (value_vars a) ->
      proved (eqn a b) /\ incl (value_vars b) (value_vars a).
Proof.
  intros rules F a b R E N. pose proof (rewrites_with_vars rules a b F R) as Inc. split; [|exact Inc].
  apply (C75_reflexive a N) in E. apply proved_eqn in E. destruct E as (M & _ & t & T & _).
  apply proved_eqn. split; [exact M|]. split.
  { apply Forall_app. split; [exact N|]. rewrite Forall_forall in *. auto. }
  exists t. destruct (C57_rewriting rules F (fun _ => t) a b R) as [S1 S2]. split; [exact T|]. split; [auto|]. intros rho Hr. apply (S2 t rho T Hr).
Qed.
Print Assumptions C75_rewriting.

(** Witness: from (Sub32 (Add32 x y) x) => y, its use inside a tree and the rule turned round. *)
Definition ex_before : value := node1 "Neg32" (node2 "Sub32" (node2 "Add32" (var "a") (node1 "Neg32" (var "b"))) (var "a")).
Definition ex_after : value := node1 "Neg32" (node1 "Neg32" (var "b")).
Example C75_rewriting_example : proved (eqn ex_before ex_after).
Proof.
  apply (C75_rewriting [ex_sub]).
  - constructor; [|constructor]. split; apply C57_example.
  - apply C57_example.
  - eexists. vm_compute. reflexivity.
  - repeat constructor.
Qed.
Example C75_symmetric_example : proved (eqn ex_after ex_before).
Proof. apply (C75_symmetric _ _ C75_rewriting_example). eexists. reflexivity. Qed.
Example C75_transitive_example : proved (eqn ex_before ex_before).
Proof. exact (C75_transitive _ _ _ C75_rewriting_example C75_symmetric_example). Qed.
Example C75_reflexive_example : exists s, Generate (eqn ex_before ex_before) = Ok s.
Proof. apply (C75_reflexive ex_before); [repeat constructor|exact C75_transitive_example]. Qed.
(** Not everything is proved, and a proved rule with a lone variable on the right has no script turned round. *)
Example C75_consistent : ~ proved ex_wrong /\ exists s, Generate ex_wrong = Ok s.
Proof.
  split; [intros P; apply C75_proved_iff in P; apply ex_wrong_invalid; apply P|]. eexists. vm_compute. reflexivity.
Qed.
Example C75_turned_refuted : proved ex_sub /\ ~ proved (eqn (r_result ex_sub) (r_match ex_sub)).
Proof. split; [exact C75_proved_example|]. intros (s & _ & E & _). vm_compute in E. discriminate. Qed.
