(** Properties of pass.ExpandAlternates (C21-C29).  Vocabulary: SpecExpand.v. *)
From Verif Require Import Text GoAst Ast Walk Expand SpecTree TreeFacts SpecExpand ExpandFacts SpecDiag DiagFacts FeatureFacts Cmd.
From Coq Require Import Arith Lia.
Open Scope res_scope.

(** Witness:  (Add(8|16) <t> (Const(8|16)) x) && c => @b (Sub(8|16) x)  and a rule
    without alternatives. *)
Definition alt816 (pre : string) : op := OpcodeParts [PCode (str pre); PAlt [str "8"; str "16"]].
Definition ex_alt : rule :=
  mkRule
    (SExp (mkSExpr [] (alt816 "Add") (str "t") None None
             [SExp (mkSExpr [] (alt816 "Const") [] None None [] false false); Var (str "x")] false false))
    (Some (GIdent NoPos (str "c"))) (str "b")
    (SExp (mkSExpr [] (alt816 "Sub") [] None None [Var (str "x")] false false)).
Definition ex_alt_inst (n : string) : rule :=
  mkRule
    (SExp (mkSExpr [] (Opcode (str "Add" ++ str n)) (str "t") None None
             [SExp (mkSExpr [] (Opcode (str "Const" ++ str n)) [] None None [] false false); Var (str "x")] false false))
    (Some (GIdent NoPos (str "c"))) (str "b")
    (SExp (mkSExpr [] (Opcode (str "Sub" ++ str n)) [] None None [Var (str "x")] false false)).
Definition ex_plain : rule := mkRule (Var (str "x")) None [] (Var (str "y")).
Definition ex_file : file := mkFile [ex_alt; ex_plain].

(** C21: success, and what the file then holds; in both directions. *)
Theorem C21_expand_iff :
  forall f f',
    ExpandAlternates f = Ok (f', None) <->
    Forall (fun r => proper_rule r /\ uniform (rule_groups r)) (f_rules f) /\
    f_rules f' = flat_map instances (f_rules f).
Proof. exact ExpandAlternates_iff. Qed.
Print Assumptions C21_expand_iff.

Example C21_example :
  ExpandAlternates ex_file = Ok (mkFile [ex_alt_inst "8"; ex_alt_inst "16"; ex_plain], None).
Proof. reflexivity. Qed.

(** C22 *)
Theorem C22_expand_plain :
  forall f f', ExpandAlternates f = Ok (f', None) -> Forall plain_rule (f_rules f').
Proof. exact expand_plain. Qed.
Print Assumptions C22_expand_plain.

(** C23 *)
Theorem C23_expand_idempotent :
  forall f f', ExpandAlternates f = Ok (f', None) -> ExpandAlternates f' = Ok (f', None).
Proof. exact (fun f f' H => expand_plain_id f' (expand_plain f f' H)). Qed.
Print Assumptions C23_expand_idempotent.

Theorem C23_expand_fixed_points :
  forall f, Forall plain_rule (f_rules f) -> ExpandAlternates f = Ok (f, None).
Proof. exact expand_plain_id. Qed.
Print Assumptions C23_expand_fixed_points.

Example C22_C23_example :
  exists f', ExpandAlternates ex_file = Ok (f', None) /\ f' <> ex_file /\
    ExpandAlternates f' = Ok (f', None).
Proof. eexists. split; [reflexivity|]. split; [discriminate|reflexivity]. Qed.

(** C24: an error exactly when two groups of one rule differ in size, and which
    error; every outcome on proper files is a success or such an error. *)
Theorem C24_error_iff :
  forall f, Forall proper_rule (f_rules f) ->
    ((exists f' e, ExpandAlternates f = Ok (f', Some e)) <->
     (exists r m n, In r (f_rules f) /\ In m (rule_groups r) /\ In n (rule_groups r) /\ m <> n)).
Proof. exact ExpandAlternates_error_iff. Qed.
Print Assumptions C24_error_iff.

Theorem C24_error_names_first_clash :
  forall f f' e, Forall proper_rule (f_rules f) -> ExpandAlternates f = Ok (f', Some e) ->
    exists pre r post before m n after, f_rules f = pre ++ r :: post /\
      Forall (fun r => uniform (rule_groups r)) pre /\
      rule_groups r = before ++ m :: n :: after /\ m <> n /\ e = clash m n.
Proof. exact proper_diag. Qed.
Print Assumptions C24_error_names_first_clash.

Definition ex_clash : rule :=
  mkRule (SExp (mkSExpr [] (alt816 "Add") [] None None [Var (str "x")] false false)) None []
    (SExp (mkSExpr [] (OpcodeParts [PAlt [str "A"; str "B"; str "C"]]) [] None None [] false false)).

Lemma ex_clash_proper : proper_rule ex_clash.
Proof.
  split; cbn; repeat split; repeat constructor; cbn; try lia; eexists; cbn; eauto.
Qed.

Example C24_C25_example :
  Forall proper_rule [ex_plain; ex_clash] /\
  ExpandAlternates (mkFile [ex_plain; ex_clash]) =
    Ok (mkFile [ex_plain; ex_clash], Some (str "incompatible alternative counts 2 and 3")).
Proof. split; [repeat constructor; apply ex_clash_proper|reflexivity]. Qed.

(** C25 *)
Theorem C25_failure_unchanged :
  forall f f' e, ExpandAlternates f = Ok (f', Some e) -> f' = f.
Proof. exact expand_unchanged. Qed.
Print Assumptions C25_failure_unchanged.

(** C26.  For parsed files see C26_parsed_no_panic (PropertiesParse.v); here for
    every file of proper rules, together with the only possible cause. *)
Lemma proper_no_panic f m : Forall proper_rule (f_rules f) -> ExpandAlternates f <> Panic m.
Proof.
  intros Hp H. unfold ExpandAlternates in H.
  destruct (expandrules (f_rules f)) as [| |m'] eqn:E; try discriminate.
  exact (expandrules_no_panic _ m' Hp E).
Qed.

Theorem C26_proper_no_panic :
  forall f m, Forall proper_rule (f_rules f) -> ExpandAlternates f <> Panic m.
Proof. exact proper_no_panic. Qed.
Print Assumptions C26_proper_no_panic.

Theorem C26_panic_cause :
  forall f m, ExpandAlternates f = Panic m ->
    exists r o, In r (f_rules f) /\ In o (rule_ops r) /\ lopsided o.
Proof. exact ExpandAlternates_panic. Qed.
Print Assumptions C26_panic_cause.

Definition ex_lopsided : file :=
  mkFile [mkRule (SExp (mkSExpr [] (OpcodeParts [PAlt [str "A"]; PAlt [str "8"; str "16"]]) [] None None [] false false))
                 None [] (Var (str "x"))].

Theorem C26_handbuilt_no_panic_refuted :
  ~ (forall f m, ExpandAlternates f <> Panic m).
Proof. exact (fun H => H ex_lopsided _ eq_refl). Qed.
Print Assumptions C26_handbuilt_no_panic_refuted.

(** C27: the rules produced are grouped by the rule they came from, and each
    keeps everything but opcodes. *)
Lemma expand_keeps f f' : ExpandAlternates f = Ok (f', None) ->
  exists groups, f_rules f' = List.concat groups /\
    Forall2 (fun r g => g <> [] /\ Forall (fun r' => r_cond r' = r_cond r /\ r_block r' = r_block r /\
        same_shape (r_match r) (r_match r') /\ same_shape (r_result r) (r_result r')) g) (f_rules f) groups.
Proof.
  intros H. pose proof H as H0. apply ExpandAlternates_iff in H. destruct H as [Hp ->].
  exists (map instances (f_rules f)). split; [apply flat_map_concat_map|].
  assert (Hn : Forall (fun r => instances r <> []) (f_rules f)).
  { eapply Forall_impl; [|exact Hp]. intros r [Pr Ur] E.
    destruct (expandrule_outcome r Pr) as [[n [Hu _]]|[m [n [Hm [Hn [Hne _]]]]]].
    - pose proof (Uni_pos _ _ Hu). destruct (Uni_arity _ _ Hu) as [-> _].
      apply (f_equal (@List.length _)) in E. unfold instances in E. rewrite map_length, seq_length in E. cbn in E. lia.
    - apply Hne. apply Ur; assumption. }
  clear Hp H0. induction Hn as [|r rs Hr _ IH]; cbn; constructor; [|exact IH].
  split; [exact Hr|]. apply Forall_forall. intros r' Hr'. unfold instances in Hr'.
  apply in_map_iff in Hr'. destruct Hr' as [i [<- _]].
  repeat split; apply value_inst_same.
Qed.

Theorem C27_keeps_all_but_opcodes :
  forall f f', ExpandAlternates f = Ok (f', None) ->
    exists groups, f_rules f' = List.concat groups /\
      Forall2 (fun r g => g <> [] /\ Forall (fun r' => r_cond r' = r_cond r /\ r_block r' = r_block r /\
          same_shape (r_match r) (r_match r') /\ same_shape (r_result r) (r_result r')) g) (f_rules f) groups.
Proof. exact expand_keeps. Qed.
Print Assumptions C27_keeps_all_but_opcodes.

(** C28 *)
Lemma expand_concat a b f :
  ExpandAlternates (mkFile (a ++ b)) = Ok (f, None) <->
  exists fa fb, ExpandAlternates (mkFile a) = Ok (fa, None) /\ ExpandAlternates (mkFile b) = Ok (fb, None) /\
    f_rules f = f_rules fa ++ f_rules fb.
Proof.
  rewrite ExpandAlternates_iff. cbn [f_rules]. rewrite Forall_app, flat_map_app. split.
  - intros [[Ha Hb] Hf]. exists (mkFile (flat_map instances a)), (mkFile (flat_map instances b)).
    rewrite !ExpandAlternates_iff. cbn [f_rules]. auto.
  - intros [fa [fb [Ha [Hb Hf]]]]. apply ExpandAlternates_iff in Ha, Hb. cbn [f_rules] in *.
    destruct Ha as [Ha Ea], Hb as [Hb Eb]. rewrite Hf, Ea, Eb. auto.
Qed.

Theorem C28_concatenation :
  forall a b f,
    ExpandAlternates (mkFile (a ++ b)) = Ok (f, None) <->
    exists fa fb, ExpandAlternates (mkFile a) = Ok (fa, None) /\ ExpandAlternates (mkFile b) = Ok (fb, None) /\
      f_rules f = f_rules fa ++ f_rules fb.
Proof. exact expand_concat. Qed.
Print Assumptions C28_concatenation.

(** When the concatenation fails, it fails like the first part that fails. *)
Lemma expand_concat_error a b e :
  (exists f, ExpandAlternates (mkFile (a ++ b)) = Ok (f, Some e)) <->
  (exists f, ExpandAlternates (mkFile a) = Ok (f, Some e)) \/
  ((exists f, ExpandAlternates (mkFile a) = Ok (f, None)) /\ exists f, ExpandAlternates (mkFile b) = Ok (f, Some e)).
Proof.
  unfold ExpandAlternates. cbn [f_rules]. rewrite expandrules_app.
  destruct (expandrules a) as [xa|ea|pa]; cbn [bind];
    destruct (expandrules b) as [xb|eb|pb]; cbn [bind]; split; intros H;
    repeat match goal with
           | H : _ \/ _ |- _ => destruct H
           | H : _ /\ _ |- _ => destruct H
           | H : exists _, _ |- _ => destruct H
           end; try discriminate;
    repeat match goal with H : Ok _ = Ok _ |- _ => inversion H; clear H; subst end; eauto 6.
Qed.

Theorem C28_concatenation_error :
  forall a b e,
    (exists f, ExpandAlternates (mkFile (a ++ b)) = Ok (f, Some e)) <->
    (exists f, ExpandAlternates (mkFile a) = Ok (f, Some e)) \/
    ((exists f, ExpandAlternates (mkFile a) = Ok (f, None)) /\ exists f, ExpandAlternates (mkFile b) = Ok (f, Some e)).
Proof. exact expand_concat_error. Qed.
Print Assumptions C28_concatenation_error.

(** C29 *)
Definition feature_kept (has : rule -> res bool) : Prop :=
  forall r f', ExpandAlternates (mkFile [r]) = Ok (f', None) ->
    exists b, has r = Ok b /\ forall r', In r' (f_rules f') -> has r' = Ok b.

Lemma feature_kept_by p (has : rule -> res bool) :
  (forall r, has r = contains (on_sexpr p) (NRule r)) ->
  (forall s s', same_fields s s' -> p s = p s') -> feature_kept has.
Proof.
  intros Hh Hp r f' H. apply ExpandAlternates_iff in H. cbn [f_rules] in H. destruct H as [Hf ->].
  inversion Hf as [|r0 l [Hr Hu] _]; subst. exists (existsb p (rule_sexprs r)). split.
  - rewrite Hh. apply contains_sexprs. apply proper_nil_free; exact Hr.
  - intros r' Hin. cbn in Hin. rewrite app_nil_r in Hin. unfold instances in Hin.
    apply in_map_iff in Hin. destruct Hin as [i [<- _]].
    rewrite Hh, feature_inst by assumption. apply contains_sexprs. apply proper_nil_free; exact Hr.
Qed.

Ltac fields := let a := fresh in let b := fresh in let H := fresh in
  intros a b H; destruct H as (? & ? & ? & ? & ? & ?); congruence.

Theorem C29_features_kept :
  feature_kept HasBinding /\ feature_kept HasType /\ feature_kept HasAux /\
  feature_kept HasAuxInt /\ feature_kept HasEllipsis /\ feature_kept HasTrailing.
Proof. repeat apply conj; (eapply feature_kept_by; [reflexivity|fields]). Qed.
Print Assumptions C29_features_kept.

(** Filtering commutes with expansion: load may filter before or after. *)
Lemma any_of_kept cs r f' : Forall feature_kept cs -> ExpandAlternates (mkFile [r]) = Ok (f', None) ->
  exists b, any_of cs r = Ok b /\ forall r', In r' (f_rules f') -> any_of cs r' = Ok b.
Proof.
  intros Hc H. induction Hc as [|c cs Hk _ IH]; cbn [any_of]; [eauto|].
  destruct (Hk r f' H) as [b [Hb Hall]]. rewrite Hb. cbn [bind].
  destruct b.
  - exists true. split; [reflexivity|]. intros r' Hr'. rewrite (Hall r' Hr'). reflexivity.
  - destruct IH as [b [Hb' Hall']]. exists b. split; [exact Hb'|]. intros r' Hr'.
    rewrite (Hall r' Hr'). cbn. auto.
Qed.

Lemma cond_kept : feature_kept (fun r => Ok (is_some (r_cond r))).
Proof.
  intros r f' H. eexists; split; [reflexivity|]. intros r' Hin.
  apply ExpandAlternates_iff in H. destruct H as [_ E]. rewrite E in Hin. cbn in Hin. rewrite app_nil_r in Hin.
  apply in_map_iff in Hin. destruct Hin as [i [<- _]]. reflexivity.
Qed.
Lemma block_kept : feature_kept (fun r => Ok (is_nonempty (r_block r))).
Proof.
  intros r f' H. eexists; split; [reflexivity|]. intros r' Hin.
  apply ExpandAlternates_iff in H. destruct H as [_ E]. rewrite E in Hin. cbn in Hin. rewrite app_nil_r in Hin.
  apply in_map_iff in Hin. destruct Hin as [i [<- _]]. reflexivity.
Qed.

Lemma not_simple_kept : feature_kept not_simple.
Proof.
  intros r f' H. unfold not_simple. apply any_of_kept; [|exact H].
  destruct C29_features_kept as (H1 & H2 & H3 & H4 & H5 & H6).
  repeat constructor; try assumption; [apply cond_kept|apply block_kept].
Qed.

Lemma filter_commutes rs f' : ExpandAlternates (mkFile rs) = Ok (f', None) ->
  exists kept g, filter_simple rs = Ok kept /\ ExpandAlternates (mkFile kept) = Ok (g, None) /\
    filter_simple (f_rules f') = Ok (f_rules g).
Proof.
  revert f'. induction rs as [|r rs IH]; intros f' H.
  - apply ExpandAlternates_iff in H. destruct H as [_ E]. cbn in E.
    exists [], (mkFile []). rewrite E. repeat split.
  - apply (proj1 (expand_concat [r] rs f')) in H. destruct H as [fa [fb [Ha [Hb E]]]].
    destruct (IH fb Hb) as [kept [g [Hk [Hg Hf]]]]. clear IH.
    destruct (not_simple_kept r fa Ha) as [b [Hr Hall]].
    assert (Happ : forall l x, Forall (fun r' => not_simple r' = Ok b) l ->
              filter_simple x = Ok (f_rules g) ->
              filter_simple (l ++ x) = Ok (if b then f_rules g else l ++ f_rules g)).
    { intros l x Hl Hx. induction Hl as [|r' l Hr' _ IHl]; cbn [app filter_simple].
      - rewrite Hx. destruct b; reflexivity.
      - rewrite Hr'. cbn [bind]. rewrite IHl. destruct b; reflexivity. }
    cbn [filter_simple]. rewrite Hr. cbn [bind]. rewrite Hk. cbn [bind]. rewrite E.
    rewrite Happ; [|apply Forall_forall; exact Hall|exact Hf].
    destruct b.
    + exists kept, g. auto.
    + exists (r :: kept), (mkFile (f_rules fa ++ f_rules g)). split; [reflexivity|]. split; [|reflexivity].
      apply (proj2 (expand_concat [r] kept _)). exists fa, g. auto.
Qed.

Theorem C29_filter_before_or_after :
  forall rs f', ExpandAlternates (mkFile rs) = Ok (f', None) ->
    exists kept g, filter_simple rs = Ok kept /\ ExpandAlternates (mkFile kept) = Ok (g, None) /\
      filter_simple (f_rules f') = Ok (f_rules g).
Proof. exact filter_commutes. Qed.
Print Assumptions C29_filter_before_or_after.

Example C27_C29_example :
  exists f', ExpandAlternates (mkFile [ex_alt]) = Ok (f', None) /\ List.length (f_rules f') = 2 /\
    HasType ex_alt = Ok true /\ HasBinding ex_alt = Ok false.
Proof. eexists. repeat split. Qed.
