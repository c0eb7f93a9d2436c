(** Proofs about instances and rewriting. *)
From Verif Require Import Text GoAst Ast Printer SpecPrint PrintFacts Smt SpecTree SpecSmt SmtArith SmtGen SmtRead SmtSem FeatureFacts SpecRewrite.
From Coq Require Import Arith Bool ZArith Lia.

Lemma typed_type G G' s t t' : typed G (SExp s) t -> forall s', typed G' (SExp s') t' -> s_op s' = s_op s -> t' = t.
Proof.
  intros T s' T' E. inversion T as [|? o B O F]; inversion T' as [|? o' B' O' F']; subst. f_equal. apply opcode_inj. congruence.
Qed.

Lemma typed_det G v t t' : typed G v t -> typed G v t' -> t' = t.
Proof.
  intros T T'. destruct v as [s| |x|]; try (inversion T; fail).
  - eapply typed_type; eauto.
  - inversion T; inversion T'; subst; reflexivity.
Qed.

(** Typing instances. *)
Lemma typed_instance G G' f v t : typed G v t -> (forall x, In x (value_vars v) -> typed G' (f x) (G x)) -> typed G' (instance f v) t.
Proof.
  revert v t. apply (typed_ind' G (fun v t => (forall x, In x (value_vars v) -> typed G' (f x) (G x)) -> typed G' (instance f v) t)).
  - intros x H. apply H. left. reflexivity.
  - intros s o B O F IH H. cbn [instance]. apply (typed_op G' _ o); [destruct B as (?&?&?&?&?&?); repeat split; assumption|exact O|].
    cbn [s_args]. cbn [value_vars] in H. clear B O F. induction IH as [|a t l ts Ha _ IHl]; cbn [map]; constructor.
    + apply Ha. intros x Hx. apply H. cbn. apply in_app_iff. auto.
    + apply IHl. intros x Hx. apply H. cbn. apply in_app_iff. auto.
Qed.
Lemma instance_typed G G' f v t : typed G v t -> typed G' (instance f v) t -> forall x, In x (value_vars v) -> typed G' (f x) (G x).
Proof.
  revert v t. apply (typed_ind' G (fun v t => typed G' (instance f v) t -> forall x, In x (value_vars v) -> typed G' (f x) (G x))).
  - intros x T y [<-|[]]. exact T.
  - intros s o B O F IH T x Hx. cbn [instance] in T. inversion T as [|s' o' B' O' F']; subst.
    assert (o' = o) as -> by (apply opcode_inj; cbn in O'; congruence). cbn [s_args] in F'. cbn [value_vars] in Hx.
    clear -IH F' Hx. revert F' Hx. induction IH as [|a t l ts Ha _ IHl]; intros F' Hx; [contradiction|].
    cbn [map] in F'. inversion F'; subst. cbn in Hx. apply in_app_iff in Hx. destruct Hx; auto.
Qed.
(** An operation has the type it has in any instance. *)
Lemma instance_type G G' f s t t' : typed G (SExp s) t -> typed G' (instance f (SExp s)) t' -> t' = t.
Proof. intros T T'. eapply typed_type; [exact T|exact T'|reflexivity]. Qed.

(** Meaning of instances. *)
Lemma all_some_ext {A B} (f g : A -> option B) l : (forall a, In a l -> f a = g a) -> all_some f l = all_some g l.
Proof.
  induction l as [|a l IH]; intros H; [reflexivity|]. cbn [all_some]. fold (all_some f). fold (all_some g).
  rewrite H, IH; [reflexivity|..]; [intros x Hx; apply H; right; exact Hx|left; reflexivity].
Qed.
Lemma all_some_map {A B C} (f : B -> option C) (g : A -> B) l : all_some f (map g l) = all_some (fun a => f (g a)) l.
Proof. induction l as [|a l IH]; [reflexivity|]. cbn [all_some map]. fold (all_some f). rewrite IH. reflexivity. Qed.

Lemma meaning_instance rho rho' f v : (forall x, In x (value_vars v) -> meaning rho (f x) = Some (rho' x)) ->
  meaning rho (instance f v) = meaning rho' v.
Proof.
  revert v. fix IH 1. intros v H. destruct v as [s| |x|]; cbn [instance meaning value_vars] in *; try reflexivity.
  - cbn [s_op s_args]. destruct (s_op s) as [c| |]; try reflexivity. destruct (operator_of c) as [o|]; [|reflexivity].
    rewrite all_some_map.
    assert (E : all_some (fun a => meaning rho (instance f a)) (s_args s) = all_some (fun a => meaning rho' a) (s_args s)).
    { destruct s as [? ? ? ? ? args ? ?]. cbn [s_args] in *. clear -IH H. induction args as [|a l IHl]; [reflexivity|].
      cbn [all_some]. fold (all_some (fun a => meaning rho (instance f a))). fold (all_some (fun a => meaning rho' a)).
      rewrite IH, IHl; [reflexivity|..]; intros x Hx; apply H; cbn; apply in_app_iff; auto. }
    rewrite E. reflexivity.
  - rewrite H; [reflexivity|left; reflexivity].
Qed.

Definition zero (t : ty) : gval := match t with TyBool => VB false | TyInt _ => VI 0 end.
Lemma zero_ok t : in_type t (zero t).
Proof. destruct t as [|[]]; cbn; auto; lia. Qed.
(** What the variables of the rule hold in an instance. *)
Definition held (rho : text -> gval) (f : text -> value) (G : text -> ty) (xs : list text) (x : text) : gval :=
  if seen x xs then match meaning rho (f x) with Some a => a | None => zero (G x) end else zero (G x).
Lemma held_ok rho f G G' xs : (forall x, in_type (G' x) (rho x)) -> (forall x, In x xs -> typed G' (f x) (G x)) ->
  (forall x, in_type (G x) (held rho f G xs x)) /\ (forall x, In x xs -> meaning rho (f x) = Some (held rho f G xs x)).
Proof.
  intros R T. split; intros x.
  - unfold held. destruct (seen x xs) eqn:S; [|apply zero_ok]. apply seen_in in S.
    destruct (meaning_ok G' rho _ _ R (T x S)) as (a & -> & Ta & _). exact Ta.
  - intros Hx. unfold held. rewrite (proj2 (seen_in _ _) Hx). destruct (meaning_ok G' rho _ _ R (T x Hx)) as (a & E & _ & _). rewrite E. reflexivity.
Qed.

(** Instances of valid rules. *)
Lemma valid_step G0 r G f : rule_typed G0 r -> (exists s, r_match r = SExp s) -> rule_valid r ->
  (forall x, In x (rule_vars r) -> typed G (f x) (G0 x)) ->
  forall rho, (forall x, in_type (G x) (rho x)) ->
  exists a, meaning rho (instance f (r_match r)) = Some a /\ meaning rho (instance f (r_result r)) = Some a.
Proof.
  intros T0 M (G1 & T1 & V) Tf rho R. pose proof (typable_same _ _ _ M T0 T1) as E.
  assert (Tf1 : forall x, In x (rule_vars r) -> typed G (f x) (G1 x)) by (intros x Hx; rewrite <- E by exact Hx; auto).
  destruct (held_ok rho f G1 G (rule_vars r) R Tf1) as [H1 H2].
  destruct (V _ H1) as (a & A1 & A2). exists a.
  rewrite (meaning_instance rho (held rho f G1 (rule_vars r)) f (r_match r)), (meaning_instance rho (held rho f G1 (rule_vars r)) f (r_result r)).
  - auto.
  - intros x Hx. apply H2. apply in_app_iff. auto.
  - intros x Hx. apply H2. apply in_app_iff. auto.
Qed.

Lemma instance_valid r f G' : (exists s, r_match r = SExp s) -> rule_valid r -> rule_typed G' (rule_instance f r) -> rule_valid (rule_instance f r).
Proof.
  intros [s M] V T'. pose proof V as (G & T & _). exists G'. split; [exact T'|].
  destruct T as (t & TM & TR), T' as (t' & TM' & TR'). cbn [rule_instance r_match r_result] in *.
  assert (t' = t) as ->. { rewrite M in *. eapply instance_type; eauto. }
  apply (valid_step G r G' f); eauto; [exists t; auto|].
  intros x Hx. apply in_app_iff in Hx. destruct Hx as [Hx|Hx]; [exact (instance_typed _ _ _ _ _ TM TM' x Hx)|exact (instance_typed _ _ _ _ _ TR TR' x Hx)].
Qed.

(** Rewriting. *)
Lemma args_replace G pre x y post ts : (forall t, typed G x t -> typed G y t) ->
  Forall2 (typed G) (pre ++ x :: post) ts -> Forall2 (typed G) (pre ++ y :: post) ts.
Proof.
  intros H. revert ts. induction pre as [|a pre IH]; intros ts F; cbn [app] in *; inversion F; subst; constructor; auto.
Qed.
Lemma args_typed_at G pre x post ts : Forall2 (typed G) (pre ++ x :: post) ts -> exists t, typed G x t.
Proof. revert ts. induction pre as [|a pre IH]; intros ts F; cbn [app] in F; inversion F; subst; eauto. Qed.
Lemma all_some_replace {A B} (f : A -> option B) pre x y post : f x = f y -> all_some f (pre ++ x :: post) = all_some f (pre ++ y :: post).
Proof. intros E. induction pre as [|a pre IH]; cbn [app all_some]; fold (all_some f); [rewrite E|rewrite IH]; reflexivity. Qed.

Lemma rewrites_same r G v w : (exists s, r_match r = SExp s) -> rule_valid r -> incl (value_vars (r_result r)) (value_vars (r_match r)) ->
  rewrites r v w -> same_meaning G v w.
Proof.
  intros M V I R. pose proof V as (G0 & T0 & _).
  induction R as [f|b o t ai a pre x y post el tr R [IH1 IH2]].
  - assert (K : forall t, typed G (instance f (r_match r)) t -> (forall x, In x (rule_vars r) -> typed G (f x) (G0 x)) /\ typed G (instance f (r_result r)) t).
    { intros t T. destruct T0 as (t0 & TM & TR). destruct M as [s M].
      assert (t = t0) as ->. { rewrite M in *. eapply instance_type; eauto. }
      assert (X : forall x, In x (value_vars (r_match r)) -> typed G (f x) (G0 x)) by (eapply instance_typed; eauto).
      split.
      - intros x Hx. apply in_app_iff in Hx. destruct Hx; auto.
      - eapply typed_instance; [exact TR|]. intros x Hx. auto. }
    split; [intros t T; apply K; exact T|]. intros t rho T Hr. apply (valid_step G0 r G f); auto. apply (K t T).
  - split.
    + intros u T. inversion T as [|s' o' B O F]; subst. cbn in O, F. apply (typed_op G _ o'); [exact B|exact O|].
      cbn [s_args]. eapply args_replace; eauto.
    + intros u rho T Hr. destruct (meaning_ok G rho _ _ Hr T) as (c & E & _). exists c. split; [exact E|]. rewrite <- E.
      inversion T as [|s' o' B O F]; subst. cbn in O, F. destruct (args_typed_at _ _ _ _ _ F) as [tx Tx].
      destruct (IH2 tx rho Tx Hr) as (d & D1 & D2). cbn [meaning s_op s_args]. destruct o as [k| |]; try reflexivity. destruct (operator_of k); [|reflexivity].
      rewrite (all_some_replace (fun a => meaning rho a) pre y x post); [reflexivity|congruence].
Qed.

(** Renaming. *)
Lemma vars_instance f v : value_vars (instance (fun x => Var (f x)) v) = map f (value_vars v).
Proof.
  revert v. fix IH 1. intros [s| |x|]; try reflexivity. cbn [instance value_vars]. destruct s as [? ? ? ? ? args ? ?]. cbn [s_args].
  induction args as [|a l IHl]; [reflexivity|]. cbn. rewrite IH, map_app. f_equal. exact IHl.
Qed.
Lemma rule_vars_renamed f r : rule_vars (renamed f r) = map f (rule_vars r).
Proof. unfold rule_vars, renamed, rule_instance. cbn [r_match r_result]. rewrite !vars_instance, map_app. reflexivity. Qed.

Definition injective_on (f : text -> text) (l : list text) : Prop := forall x y, In x l -> In y l -> f x = f y -> x = y.

(** The type of a new name is that of the old one. *)
Definition carried (f : text -> text) (G : text -> ty) (l : list text) (y : text) : ty :=
  match find (fun x => text_eqb (f x) y) l with Some x => G x | None => TyBool end.
Lemma carried_ok f G l x : injective_on f l -> In x l -> carried f G l (f x) = G x.
Proof.
  intros I Hx. unfold carried. destruct (find _ l) as [y|] eqn:E.
  - apply find_some in E. destruct E as [Hy E]. destruct (text_eqb_spec (f y) (f x)) as [K|]; [|discriminate]. f_equal. apply I; auto.
  - exfalso. apply (find_none _ _ E) in Hx. cbn in Hx. rewrite text_eqb_refl in Hx. discriminate.
Qed.
Lemma renamed_typed f G r : injective_on f (rule_vars r) -> rule_typed G r -> rule_typed (carried f G (rule_vars r)) (renamed f r).
Proof.
  intros I (t & TM & TR). exists t. unfold renamed, rule_instance. cbn [r_match r_result].
  split; eapply typed_instance; eauto; intros x Hx; rewrite <- (carried_ok f G (rule_vars r) x I); try (apply typed_var); apply in_app_iff; auto.
Qed.
Lemma typed_renamed f G v t : typed G (instance (fun x => Var (f x)) v) t -> typed (fun x => G (f x)) v t.
Proof.
  revert v t. fix IH 1. intros [s| |x|] t T; cbn [instance] in T; try (inversion T; fail).
  - inversion T as [|s' o B O F]; subst. apply (typed_op _ s o); [destruct B as (?&?&?&?&?&?); repeat split; assumption|exact O|].
    cbn [s_args] in F. clear -IH F. destruct s as [? ? ? ? ? args ? ?]. cbn [s_args] in *. remember (params o) as ts eqn:E. clear E.
    revert ts F. induction args as [|a l IHl]; intros ts F; cbn [map] in F; inversion F; subst; constructor; auto.
  - inversion T; subst. apply (typed_var (fun x => G (f x))).
Qed.
Lemma sexp_renamed f r : (exists s, r_match (renamed f r) = SExp s) <-> exists s, r_match r = SExp s.
Proof. unfold renamed, rule_instance. cbn [r_match]. destruct (r_match r); cbn [instance]; split; intros [s0 E]; try discriminate; eauto. Qed.

Lemma firsts_map f l : forall seen, injective_on f (seen ++ l) -> firsts (map f seen) (map f l) = map f (firsts seen l).
Proof.
  induction l as [|x l IH]; intros sn I; [reflexivity|]. cbn [map firsts].
  assert (E : existsb (text_eqb (f x)) (map f sn) = existsb (text_eqb x) sn).
  { apply eq_true_iff_eq. rewrite (seen_in (f x) (map f sn)), (seen_in x sn). split.
    - intros H. apply in_map_iff in H. destruct H as (y & E & Hy). apply I in E; [subst; exact Hy| |]; apply in_app_iff; cbn; auto.
    - apply in_map. }
  rewrite E. destruct (existsb (text_eqb x) sn).
  - apply IH. intros a b Ha Hb. apply I; apply in_app_iff; cbn; apply in_app_iff in Ha, Hb; tauto.
  - cbn [map]. f_equal. apply (IH (x :: sn)). intros a b Ha Hb. apply I; apply in_app_iff; cbn; cbn in Ha, Hb; rewrite in_app_iff in Ha, Hb; tauto.
Qed.

Lemma op_term_map (f : term -> term) o l : (forall g args, f (TApp g args) = TApp g (map f args)) -> op_term o (map f l) = f (op_term o l).
Proof. intros H. destruct o as [[] w|[]]; cbn; rewrite ?H; cbn; rewrite ?H; reflexivity. Qed.

Lemma vterm_renamed f v G t : typed G v t -> vterm (instance (fun x => Var (f x)) v) = term_renamed f (vterm v).
Proof.
  revert v t. apply (typed_ind' G (fun v _ => vterm (instance (fun x => Var (f x)) v) = term_renamed f (vterm v))); [reflexivity|].
  intros s o B O F IH. cbn [instance vterm]. rewrite !(with_op_typed _ o) by exact O. cbn [s_args].
  rewrite <- (op_term_map (term_renamed f)) by reflexivity. f_equal. rewrite !map_map. clear -IH.
  induction IH as [|a t l ts Ha _ IHl]; [reflexivity|]. cbn [map]. rewrite Ha, IHl. reflexivity.
Qed.

Lemma script_renamed f G r : injective_on f (rule_vars r) -> rule_typed G r ->
  script_cmds (carried f G (rule_vars r)) (renamed f r) = map (command_renamed f) (script_cmds G r).
Proof.
  intros I T. unfold script_cmds. cbn [map]. rewrite map_app. cbn [map command_renamed term_renamed].
  destruct T as (t & TM & TR). do 2 f_equal. f_equal.
  - unfold decls. rewrite rule_vars_renamed.
    replace (firsts [] (map f (rule_vars r))) with (map f (firsts [] (rule_vars r))) by (symmetry; apply (firsts_map f (rule_vars r) []); exact I).
    rewrite !map_map. apply map_ext_in. intros x Hx. cbn.
    rewrite carried_ok; [reflexivity|exact I|]. apply firsts_in in Hx. apply Hx.
  - unfold renamed, rule_instance. cbn [r_match r_result]. rewrite (vterm_renamed _ _ _ _ TM), (vterm_renamed _ _ _ _ TR). reflexivity.
Qed.
