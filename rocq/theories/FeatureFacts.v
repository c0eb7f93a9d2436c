(** Features of a rule's s-expressions are the same in all its instances. *)
From Verif Require Import Text GoAst Ast Walk SpecTree TreeFacts SpecExpand ExpandFacts.
From Coq Require Import Arith Lia.

Fixpoint value_sexprs (v : value) : list sexpr :=
  match v with
  | SExp s => s :: flat_map value_sexprs (s_args s)
  | _ => []
  end.

Definition rule_sexprs (r : rule) : list sexpr := value_sexprs (r_match r) ++ value_sexprs (r_result r).

Lemma occurs_inv n m : occurs n m -> n = m \/ exists c, In c (children m) /\ occurs n c.
Proof. intros H; inversion H; subst; eauto. Qed.

Lemma occurs_op_sexpr s o : ~ occurs (NSExpr s) (node_of_op o).
Proof.
  intros H. destruct (occurs_inv _ _ H) as [E|[c [Hc Ho]]].
  - destruct o; discriminate.
  - destruct o as [|ps|]; cbn in Hc; try contradiction.
    apply in_map_iff in Hc. destruct Hc as [p [<- _]].
    destruct (occurs_inv _ _ Ho) as [E|[c' [Hc' _]]]; destruct p; try discriminate; contradiction.
Qed.

Lemma occurs_sexpr_value s v : occurs (NSExpr s) (node_of_value v) <-> In s (value_sexprs v).
Proof.
  induction v as [s0 IH| | |] using value_ind'; cbn.
  - split.
    + intros H. destruct (occurs_inv _ _ H) as [E|[c [Hc Ho]]].
      * inversion E; subst. left; reflexivity.
      * right. apply in_flat_map. cbn in Hc. destruct Hc as [<-|Hc].
        { exfalso. eapply occurs_op_sexpr; eauto. }
        apply in_map_iff in Hc. destruct Hc as [a [<- Ha]]. exists a. split; [exact Ha|].
        rewrite Forall_forall in IH. apply IH; assumption.
    + intros [->|H]; [constructor|].
      apply in_flat_map in H. destruct H as [a [Ha Hs]]. rewrite Forall_forall in IH.
      econstructor; [|apply IH; eassumption]. cbn. right. apply in_map; exact Ha.
  - split; [|contradiction]. intros H.
    destruct (occurs_inv _ _ H) as [E|[c [[] _]]]; discriminate.
  - split; [|contradiction]. intros H.
    destruct (occurs_inv _ _ H) as [E|[c [[] _]]]; discriminate.
  - split; [|contradiction]. intros H.
    destruct (occurs_inv _ _ H) as [E|[c [[] _]]]; discriminate.
Qed.

Lemma occurs_sexpr_rule s r : occurs (NSExpr s) (NRule r) <-> In s (rule_sexprs r).
Proof.
  unfold rule_sexprs. rewrite in_app_iff, <- !occurs_sexpr_value. split.
  - intros H. destruct (occurs_inv _ _ H) as [E|[c [[<-|[<-|[]]] Ho]]]; [discriminate|auto..].
  - intros [H|H]; (econstructor; [|exact H]); cbn; auto.
Qed.

Lemma nil_op o : proper_op o -> ~ occurs NNil (node_of_op o).
Proof.
  intros Hp H. destruct (occurs_inv _ _ H) as [E|[c [Hc Ho]]].
  - destruct o; try discriminate. exact Hp.
  - destruct o as [|ps|]; cbn in Hc; try contradiction.
    apply in_map_iff in Hc. destruct Hc as [p [<- Hin]].
    cbn in Hp. destruct Hp as [Hf _]. rewrite Forall_forall in Hf. specialize (Hf _ Hin).
    destruct (occurs_inv _ _ Ho) as [E|[c' [Hc' _]]]; destruct p; try discriminate; contradiction.
Qed.

Lemma nil_value v : proper_value v -> ~ occurs NNil (node_of_value v).
Proof.
  induction v as [s0 IH| | |] using value_ind'; intros Hp H;
    destruct (occurs_inv _ _ H) as [E|[c [Hc Ho]]]; try discriminate; try contradiction.
  apply proper_sexp in Hp. destruct Hp as [Hop Hargs]. cbn in Hc. destruct Hc as [<-|Hc].
  - eapply nil_op; eauto.
  - apply in_map_iff in Hc. destruct Hc as [a [<- Ha]]. rewrite Forall_forall in *.
    apply (IH a Ha (Hargs a Ha) Ho).
Qed.

Lemma proper_nil_free r : proper_rule r -> nil_free (NRule r).
Proof.
  intros [Hm Hr] H. destruct (occurs_inv _ _ H) as [E|[c [Hc Ho]]]; [discriminate|].
  cbn in Hc. destruct Hc as [<-|[<-|[]]]; [exact (nil_value _ Hm Ho)|exact (nil_value _ Hr Ho)].
Qed.

Definition same_fields (s s' : sexpr) : Prop :=
  s_binding s = s_binding s' /\ s_type s = s_type s' /\ s_auxint s = s_auxint s' /\
  s_aux s = s_aux s' /\ s_ellipsis s = s_ellipsis s' /\ s_trailing s = s_trailing s'.

Lemma value_sexprs_inst i v : Forall2 same_fields (value_sexprs v) (value_sexprs (value_inst i v)).
Proof.
  induction v as [s0 IH| | |] using value_ind'; cbn; try constructor.
  - repeat split.
  - induction IH as [|a l Ha _ IHl]; cbn; [constructor|].
    apply Forall2_app; assumption.
Qed.

Lemma rule_sexprs_inst i r : Forall2 same_fields (rule_sexprs r) (rule_sexprs (rule_inst i r)).
Proof. apply Forall2_app; apply value_sexprs_inst. Qed.

Lemma Forall2_existsb {A} (R : A -> A -> Prop) (p : A -> bool) l l' :
  (forall a b, R a b -> p a = p b) -> Forall2 R l l' -> existsb p l = existsb p l'.
Proof. intros H F. induction F; cbn; [reflexivity|]. f_equal; auto. Qed.

Lemma contains_sexprs p r : nil_free (NRule r) ->
  contains (on_sexpr p) (NRule r) = Ok (existsb p (rule_sexprs r)).
Proof.
  intros Hn. destruct (contains_total (on_sexpr p) (NRule r) Hn) as [b Hb]. rewrite Hb. f_equal.
  pose proof (has_feature p r b Hb) as H.
  apply Bool.eq_iff_eq_true. rewrite H, existsb_exists.
  split; intros [s [Hs Hp]]; exists s; split; auto; apply occurs_sexpr_rule; exact Hs.
Qed.

Lemma feature_inst p i r :
  (forall s s', same_fields s s' -> p s = p s') ->
  proper_rule r ->
  contains (on_sexpr p) (NRule (rule_inst i r)) = contains (on_sexpr p) (NRule r).
Proof.
  intros Hp Hr. rewrite !contains_sexprs.
  - f_equal. symmetry. eapply Forall2_existsb; [exact Hp|apply rule_sexprs_inst].
  - apply proper_nil_free; exact Hr.
  - apply proper_nil_free. apply rule_inst_plain with (i := i) in Hr. apply plain_rule_instances in Hr. apply Hr.
Qed.
