(** The commands of a generated script decide validity of its rule. *)
From Verif Require Import Text GoAst Ast SpecPrint Smt SpecSmt SmtArith SmtGen SmtRead.
From Coq Require Import Arith Bool ZArith Lia.
Open Scope Z_scope.

(** Printed typable rules have no CR. *)
Lemma no_cr_opcode o : ~ In cr (opcode_of o).
Proof. destruct o as [[] []|[]]; cbn; intros X; repeat (destruct X as [X|X]; [discriminate X|]); exact X. Qed.
Lemma typed_no_cr lenient G v t : typed G v t -> names_ok lenient (value_vars v) -> ~ In cr (value_text v).
Proof.
  revert v t. apply (typed_ind' G (fun v _ => names_ok lenient (value_vars v) -> ~ In cr (value_text v))).
  - intros x Hn. inversion Hn; subst. cbn. eapply no_cr. apply legal_symbol. eassumption.
  - intros s o B O F IH Hn. destruct B as (HB & HT & HAI & HA & HE & HR). cbn [value_text].
    rewrite HB, HT, HAI, HA, HE, HR, O. cbn [if_given if_set when opcode_text app].
    intros X. apply in_app_iff in X. destruct X as [X|X]; [cbn in X; destruct X as [X|X]; [discriminate X|exact X]|].
    apply in_app_iff in X. destruct X as [X|X]; [exact (no_cr_opcode o X)|].
    apply in_app_iff in X. destruct X as [X|X]; [|cbn in X; destruct X as [X|X]; [discriminate X|exact X]].
    cbn [value_vars] in Hn. clear -IH Hn X.
    induction IH as [|a t l ts Ha _ IHl]; [exact X|]. cbn [flat_map] in Hn. apply Forall_app in Hn.
    cbn [map List.concat] in X. apply in_app_iff in X. destruct X as [X|X]; [|exact (IHl (proj2 Hn) X)].
    apply in_app_iff in X. destruct X as [X|X]; [cbn in X; destruct X as [X|X]; [discriminate X|exact X]|].
    exact (Ha (proj1 Hn) X).
Qed.
Lemma typable_no_cr lenient G r : typable G r -> names_ok lenient (rule_vars r) -> ~ In cr (rule_text r).
Proof.
  intros (C & B & _ & [t [TM TR]]) Hn. apply Forall_app in Hn. unfold rule_text. rewrite C, B. cbn [if_set if_given app].
  intros X. apply in_app_iff in X. destruct X as [X|X]; [eapply typed_no_cr; [exact TM|apply Hn|exact X]|].
  apply in_app_iff in X. destruct X as [X|X].
  - cbn in X. repeat (destruct X as [X|X]; [discriminate X|]). exact X.
  - eapply typed_no_cr; [exact TR|apply Hn|exact X].
Qed.

(** Sorts. *)
Lemma sort_op e o ts : List.length ts = List.length (params o) ->
  all_some (fun a => term_sort e a) ts = Some (map tsort (params o)) ->
  term_sort e (op_term o ts) = Some (tsort (result o)).
Proof.
  intros L E. destruct o as [[] []|[]]; cbn [params List.length map] in *;
    destruct ts as [|a [|b [|]]]; try discriminate; cbn [op_term term_sort]; try rewrite E; try reflexivity;
    cbn [all_some term_sort] in *; rewrite ?E; try reflexivity.
Qed.
Lemma vterm_sort G e v t : typed G v t -> (forall x, In x (value_vars v) -> env_find e x = Some (tsort (G x))) ->
  term_sort e (vterm v) = Some (tsort t).
Proof.
  revert v t. apply (typed_ind' G (fun v t => (forall x, In x (value_vars v) -> env_find e x = Some (tsort (G x))) ->
    term_sort e (vterm v) = Some (tsort t))).
  - intros x Hx. apply Hx. left; reflexivity.
  - intros s o B O F IH Hx. cbn [vterm]. rewrite (with_op_typed s o) by exact O. apply sort_op.
    + rewrite map_length. eapply Forall2_len; eauto.
    + cbn [value_vars] in Hx. clear -IH Hx. induction IH as [|a t l ts Ha _ IHl]; [reflexivity|].
      cbn [map all_some]. fold (all_some (fun a => term_sort e a)). rewrite Ha, IHl; [reflexivity|..];
        intros x H; apply Hx; cbn; apply in_app_iff; auto.
Qed.

Definition env_of (ds : list (text * ty)) : env := map (fun d => (fst d, tsort (snd d))) ds.
Lemma env_find_app a b x : env_find (a ++ b) x = match env_find a x with Some s => Some s | None => env_find b x end.
Proof. induction a as [|[y s] a IH]; cbn; [reflexivity|]. destruct (text_eqb y x); [reflexivity|exact IH]. Qed.
Lemma env_find_none e x : (forall s, ~ In (x, s) e) -> env_find e x = None.
Proof.
  induction e as [|[y s] e IH]; intros H; [reflexivity|]. cbn. destruct (text_eqb_spec y x) as [->|].
  - elim (H s). left; reflexivity.
  - apply IH. intros s' Hs. apply (H s'). right; exact Hs.
Qed.
Lemma env_find_in e x s : NoDup (map fst e) -> In (x, s) e -> env_find e x = Some s.
Proof.
  induction e as [|[y u] e IH]; intros N Hin; [contradiction|]. cbn in *. inversion N; subst.
  destruct Hin as [E|Hin].
  - inversion E; subst. rewrite text_eqb_refl. reflexivity.
  - destruct (text_eqb_spec y x) as [->|]; [|auto]. elim H1. apply in_map_iff. exists (x, s). auto.
Qed.

Lemma body_decls lenient ds rest : forall e,
  Forall (fun d => legal_name lenient (fst d) = true) ds -> NoDup (names ds) ->
  (forall x, In x (names ds) -> env_find e x = None) ->
  body_ok lenient (rev (env_of ds) ++ e) rest ->
  body_ok lenient e (map (fun d => DeclareConst (fst d) (tsort (snd d))) ds ++ rest).
Proof.
  induction ds as [|[x t] ds IH]; intros e Hl Hn He Hr; [exact Hr|].
  inversion Hl; subst. inversion Hn; subst. cbn [map app body_ok fst snd].
  split; [assumption|]. split; [apply He; left; reflexivity|]. apply IH; try assumption.
  - intros y Hy. cbn. destruct (text_eqb_spec x y) as [->|]; [contradiction|]. apply He. right; exact Hy.
  - cbn [env_of map rev fst snd] in Hr. rewrite <- app_assoc in Hr. exact Hr.
Qed.

Lemma rev_find e x : NoDup (map fst e) -> env_find (rev e) x = env_find e x.
Proof.
  intros N. assert (N' : NoDup (map fst (rev e))) by (rewrite map_rev; apply NoDup_rev; exact N).
  destruct (env_find e x) as [s|] eqn:E.
  - apply env_find_in; [exact N'|]. apply -> in_rev.
    clear -E. induction e as [|[y u] e IH]; [discriminate|]. cbn in E.
    destruct (text_eqb_spec y x) as [->|]; [inversion E; left; reflexivity|right; auto].
  - apply env_find_none. intros s Hs. apply in_rev in Hs. rewrite (env_find_in e x s N Hs) in E. discriminate.
Qed.

Lemma decls_env G r : forall x, In x (rule_vars r) -> env_find (rev (env_of (decls G r))) x = Some (tsort (G x)).
Proof.
  intros x Hx. assert (N : NoDup (map fst (env_of (decls G r)))).
  { unfold env_of. rewrite map_map. cbn. fold (names (decls G r)). rewrite decls_names. apply firsts_nodup. }
  rewrite rev_find by exact N. apply env_find_in; [exact N|].
  unfold env_of, decls. rewrite map_map. cbn. apply in_map_iff. exists x. split; [reflexivity|].
  apply firsts_in. cbn. tauto.
Qed.

Lemma script_well_formed lenient G r : rule_typed G r -> names_ok lenient (rule_vars r) ->
  script_ok lenient (script_cmds G r).
Proof.
  intros [t [TM TR]] Hn. unfold script_cmds, script_ok. repeat (split; [reflexivity|]).
  apply body_decls.
  - apply Forall_forall. intros d Hd. apply (in_map fst) in Hd. fold (names (decls G r)) in Hd.
    rewrite decls_names in Hd. apply firsts_in in Hd. unfold names_ok in Hn. rewrite Forall_forall in Hn. apply Hn. tauto.
  - rewrite decls_names. apply firsts_nodup.
  - reflexivity.
  - rewrite app_nil_r. cbn [body_ok]. split; [|exact I].
    pose proof (decls_env G r) as HE.
    assert (Hm : term_sort (rev (env_of (decls G r))) (vterm (r_match r)) = Some (tsort t)).
    { eapply vterm_sort; [exact TM|]. intros x Hx. apply HE. apply in_app_iff. auto. }
    assert (Hr : term_sort (rev (env_of (decls G r))) (vterm (r_result r)) = Some (tsort t)).
    { eapply vterm_sort; [exact TR|]. intros x Hx. apply HE. apply in_app_iff. auto. }
    cbn [term_sort all_some]. rewrite Hm, Hr. destruct t as [|[]]; reflexivity.
Qed.

(** Values. *)
Definition enc (t : ty) (v : gval) : sval :=
  match t, v with
  | TyInt w, VI z => SV (bits w) (z mod M w)
  | _, VB b => SB b
  | _, VI z => SV 0 z
  end.
Definition dec_val (t : ty) (v : sval) : gval :=
  match t, v with
  | TyInt w, SV _ z => VI (signed w z)
  | TyInt _, _ => VI 0
  | TyBool, SB b => VB b
  | TyBool, _ => VB false
  end.

Lemma enc_inj t a b : in_type t a -> in_type t b -> enc t a = enc t b -> a = b.
Proof.
  destruct t as [|w], a as [x|x], b as [y|y]; cbn; try contradiction; intros Ha Hb E.
  - congruence.
  - inversion E as [E']. f_equal. eapply residue_inj; eauto.
Qed.
Lemma dec_ok t s : sval_of (tsort t) s -> in_type t (dec_val t s) /\ enc t (dec_val t s) = s.
Proof.
  destruct t as [|w], s as [b|n z]; cbn; try contradiction; auto.
  intros [<- Hz]. split; [apply signed_range; exact Hz|]. rewrite signed_mod by exact Hz. reflexivity.
Qed.
Lemma enc_sort t a : in_type t a -> sval_of (tsort t) (enc t a).
Proof.
  destruct t as [|w], a as [b|z]; cbn; try contradiction; auto.
  intros _. split; [reflexivity|]. apply Z.mod_pos_bound. apply M_pos.
Qed.

Lemma land_spec x y i : Z.testbit (Z.land x y) i = andb (Z.testbit x i) (Z.testbit y i). Proof. apply Z.land_spec. Qed.
Lemma lor_spec x y i : Z.testbit (Z.lor x y) i = orb (Z.testbit x i) (Z.testbit y i). Proof. apply Z.lor_spec. Qed.
Lemma lxor_spec x y i : Z.testbit (Z.lxor x y) i = xorb (Z.testbit x i) (Z.testbit y i). Proof. apply Z.lxor_spec. Qed.

Lemma apply_ok o vs : Forall2 in_type (params o) vs ->
  exists a, apply o vs = Some a /\ in_type (result o) a /\
    forall rho ts, all_some (fun t => term_val rho t) ts = Some (map (fun '(t, v) => enc t v) (combine (params o) vs)) ->
      term_val rho (op_term o ts) = Some (enc (result o) a).
Proof.
  intros F.
  destruct o as [[] w|[]]; cbn [params] in F;
    repeat match goal with
           | F : Forall2 _ (_ :: _) _ |- _ => inversion F; subst; clear F
           | F : Forall2 _ [] _ |- _ => inversion F; subst; clear F
           end;
    repeat match goal with
           | Hx : in_type (TyInt _) ?y |- _ => destruct y as [?|?]; cbn [in_type] in Hx; [contradiction|]
           | Hx : in_type TyBool ?y |- _ => destruct y as [?|?]; cbn [in_type] in Hx; [|contradiction]
           end;
    (eexists; split; [reflexivity|]; split; [cbn [result in_type]|]);
    try exact I;
    try (intros rho ts E; cbn [params combine map] in E; cbn [op_term term_val];
         first [rewrite E | cbn [all_some term_val]; rewrite E]);
    try (cbn; match goal with |- context [?f ?a ?b] => idtac end; reflexivity);
    try (apply wrap_range).
  - cbn. f_equal. f_equal. apply add_res.
  - cbn. f_equal. f_equal. apply sub_res.
  - apply (bitwise_range Z.land andb); auto using land_spec.
  - cbn. f_equal. f_equal. apply (bitwise_res Z.land andb); auto using land_spec.
  - apply (bitwise_range Z.lor orb); auto using lor_spec.
  - cbn. f_equal. f_equal. apply (bitwise_res Z.lor orb); auto using lor_spec.
  - apply (bitwise_range Z.lxor xorb); auto using lxor_spec.
  - cbn. f_equal. f_equal. apply (bitwise_res Z.lxor xorb); auto using lxor_spec.
  - cbn. f_equal. f_equal. apply neg_res.
  - apply com_range. assumption.
  - cbn. f_equal. f_equal. apply com_res.
Qed.

Lemma meaning_ok G rho v t : (forall x, in_type (G x) (rho x)) -> typed G v t ->
  exists a, meaning rho v = Some a /\ in_type t a /\
    forall sigma, (forall x, In x (value_vars v) -> sigma x = enc (G x) (rho x)) ->
      term_val sigma (vterm v) = Some (enc t a).
Proof.
  intros HG. revert v t. apply (typed_ind' G (fun v t => exists a, meaning rho v = Some a /\ in_type t a /\
    forall sigma, (forall x, In x (value_vars v) -> sigma x = enc (G x) (rho x)) ->
      term_val sigma (vterm v) = Some (enc t a))).
  - intros x. exists (rho x). split; [reflexivity|]. split; [apply HG|]. intros sigma Hs. cbn. rewrite Hs; [reflexivity|left; reflexivity].
  - intros s o B O F IH.
    assert (Hargs : exists vs, all_some (fun a => meaning rho a) (s_args s) = Some vs /\ Forall2 in_type (params o) vs /\
      forall sigma, (forall x, In x (flat_map value_vars (s_args s)) -> sigma x = enc (G x) (rho x)) ->
        all_some (fun t => term_val sigma t) (map vterm (s_args s)) = Some (map (fun '(t, v) => enc t v) (combine (params o) vs))).
    { clear -IH. induction IH as [|a t l ts [v [Hv [Tv Sv]]] _ [vs [Hvs [Tvs Svs]]]].
      - exists []. repeat split; constructor.
      - exists (v :: vs). cbn [all_some]. fold (all_some (fun a => meaning rho a)). rewrite Hv, Hvs.
        repeat split; [constructor; assumption|]. intros sigma Hs. cbn [map all_some flat_map combine] in *.
        fold (all_some (fun t => term_val sigma t)).
        rewrite Sv, Svs; [reflexivity|..]; intros x Hx; apply Hs; apply in_app_iff; auto. }
    destruct Hargs as [vs [Hvs [Tvs Svs]]]. destruct (apply_ok o vs Tvs) as [a [Ha [Ta Sa]]].
    exists a. cbn [meaning vterm value_vars]. rewrite O, operator_of_opcode, Hvs, (with_op_typed s o) by exact O.
    split; [exact Ha|]. split; [exact Ta|]. intros sigma Hs. apply Sa. apply Svs. exact Hs.
Qed.

(** Typings of a rule agree on its variables. *)
Lemma typed_same G G' v t : typed G v t -> typed G' v t -> forall x, In x (value_vars v) -> G x = G' x.
Proof.
  intros T. revert v t T. apply (typed_ind' G (fun v t => typed G' v t -> forall x, In x (value_vars v) -> G x = G' x)).
  - intros x T' y [<-|[]]. inversion T'. congruence.
  - intros s o B O F IH T' x Hx. inversion T' as [|s' o' B' O' F']; subst.
    assert (o' = o) as -> by (apply opcode_inj; congruence).
    cbn [value_vars] in Hx. clear -IH F' Hx. revert F' Hx.
    induction IH as [|a t l ts Ha _ IHl]; intros F' Hx; [contradiction|]. inversion F'; subst.
    cbn in Hx. apply in_app_iff in Hx. destruct Hx; auto.
Qed.

Lemma typable_same G G' r : (exists s, r_match r = SExp s) -> rule_typed G r -> rule_typed G' r ->
  forall x, In x (rule_vars r) -> G x = G' x.
Proof.
  intros [s M] [t [TM TR]] [t' [TM' TR']].
  assert (t' = t) as ->.
  { rewrite M in *. inversion TM; inversion TM'; subst. f_equal. apply opcode_inj. congruence. }
  intros x Hx. apply in_app_iff in Hx. destruct Hx as [Hx|Hx]; [exact (typed_same _ _ _ _ TM TM' x Hx)|exact (typed_same _ _ _ _ TR TR' x Hx)].
Qed.

Lemma decl_in G r x s : In (DeclareConst x s) (script_cmds G r) <-> In x (rule_vars r) /\ s = tsort (G x).
Proof.
  unfold script_cmds. cbn [In]. rewrite in_app_iff, in_map_iff. unfold decls. split.
  - intros [E|[E|[[d [E Hd]]|[E|[E|[E|[]]]]]]]; try discriminate.
    apply in_map_iff in Hd. destruct Hd as [y [<- Hy]]. inversion E; subst. apply firsts_in in Hy. tauto.
  - intros [Hx ->]. right; right; left. exists (x, G x). split; [reflexivity|]. apply in_map_iff. exists x.
    split; [reflexivity|]. apply firsts_in. cbn. tauto.
Qed.
Lemma assert_in G r t : In (Assert t) (script_cmds G r) <->
  t = TApp (str "not") [TApp (str "=") [vterm (r_match r); vterm (r_result r)]].
Proof.
  unfold script_cmds. cbn [In]. rewrite in_app_iff, in_map_iff. split.
  - intros [E|[E|[[d [E Hd]]|[E|[E|[E|[]]]]]]]; try discriminate. congruence.
  - intros ->. right; right; right. left; reflexivity.
Qed.

Lemma goal_val sigma m x t a b : in_type t a -> in_type t b ->
  term_val sigma m = Some (enc t a) -> term_val sigma x = Some (enc t b) ->
  exists q, term_val sigma (TApp (str "not") [TApp (str "=") [m; x]]) = Some (SB q) /\ (q = true <-> a <> b).
Proof.
  intros Ha Hb Hm Hx. cbn [term_val all_some]. rewrite Hm, Hx.
  destruct t as [|w], a as [a|a], b as [b|b]; cbn [in_type] in *; try contradiction; cbn.
  - eexists. split; [reflexivity|]. destruct a, b; cbn; split; congruence.
  - eexists. split; [reflexivity|]. destruct (Z.eqb_spec (a mod M w) (b mod M w)) as [E|N]; cbn.
    + split; [discriminate|]. intros N. elim N. f_equal. eapply residue_inj; eauto.
    + split; [|reflexivity]. intros _ E. apply N. congruence.
Qed.

Lemma gval_eq_dec (a b : gval) : {a = b} + {a <> b}.
Proof. decide equality; [apply bool_dec|apply Z.eq_dec]. Qed.

Lemma unsat_iff_valid G r : (exists s, r_match r = SExp s) -> rule_typed G r ->
  (~ satisfiable (script_cmds G r) <-> rule_valid r).
Proof.
  intros HM HT. split.
  - intros Hu. exists G. split; [exact HT|]. intros rho Hrho. destruct HT as [t [TM TR]].
    destruct (meaning_ok G rho _ _ Hrho TM) as [a [Ha [Ta Sa]]].
    destruct (meaning_ok G rho _ _ Hrho TR) as [b [Hb [Tb Sb]]].
    destruct (gval_eq_dec a b) as [->|N]; [exists b; auto|]. exfalso. apply Hu.
    exists (fun x => enc (G x) (rho x)). split.
    + intros x s Hd. apply decl_in in Hd. destruct Hd as [_ ->]. apply enc_sort. apply Hrho.
    + intros q Hq. apply assert_in in Hq. subst q.
      destruct (goal_val _ _ _ t a b Ta Tb (Sa _ (fun x _ => eq_refl)) (Sb _ (fun x _ => eq_refl))) as [q [Eq Hq]].
      rewrite Eq. do 2 f_equal. apply Hq. exact N.
  - intros [G' [HT' Hv]] [sigma [Hs Ha]].
    pose proof (typable_same G G' r HM HT HT') as HG.
    set (rho := fun x => if seen x (rule_vars r) then dec_val (G' x) (sigma x)
                         else match G' x with TyBool => VB false | TyInt _ => VI 0 end).
    assert (Hd : forall x, In x (rule_vars r) -> sval_of (tsort (G' x)) (sigma x)).
    { intros x Hx. rewrite <- HG by exact Hx. apply Hs. apply decl_in. auto. }
    assert (Hrho : forall x, in_type (G' x) (rho x)).
    { intros x. unfold rho. destruct (seen x (rule_vars r)) eqn:S.
      - apply dec_ok. apply Hd. apply seen_in. exact S.
      - destruct (G' x) as [|[]]; cbn; auto; lia. }
    assert (He : forall x, In x (rule_vars r) -> sigma x = enc (G' x) (rho x)).
    { intros x Hx. unfold rho. rewrite (proj2 (seen_in _ _) Hx). symmetry. apply dec_ok. apply Hd. exact Hx. }
    destruct HT' as [t [TM TR]].
    destruct (meaning_ok G' rho _ _ Hrho TM) as [a [Ea [Ta Sa]]].
    destruct (meaning_ok G' rho _ _ Hrho TR) as [b [Eb [Tb Sb]]].
    destruct (Hv rho Hrho) as [c [Ec Ec']]. assert (a = b) as -> by congruence.
    destruct (goal_val sigma (vterm (r_match r)) (vterm (r_result r)) t b b Ta Tb) as [q [Eq Hq]].
    + apply Sa. intros x Hx. apply He. apply in_app_iff. auto.
    + apply Sb. intros x Hx. apply He. apply in_app_iff. auto.
    + pose proof (Ha _ (proj2 (assert_in G r _) eq_refl)) as Et. rewrite Eq in Et. inversion Et; subst.
      apply Hq; reflexivity.
Qed.
