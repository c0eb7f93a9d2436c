(** The messages of a failed generation. *)
From Verif Require Import Text GoAst Ast Printer SpecPrint PrintFacts Smt SpecSmt SmtGen SpecSmtErr.
From Coq Require Import Arith Bool Lia.
Open Scope res_scope.
Open Scope nat_scope.
Open Scope list_scope.

Lemma type_string_gt t : type_string (gt t) = type_name t.
Proof. destruct t as [|[]]; reflexivity. Qed.

Lemma params_some_err o t : t <> result o ->
  op_params (simple_of o) (Some (gt t)) = Err (str "invalid return type " ++ type_name t).
Proof. destruct o as [[] []|[]], t as [|[]]; intros E; try reflexivity; elim E; reflexivity. Qed.

Lemma ty_dec (a b : ty) : {a = b} + {a <> b}.
Proof. decide equality. decide equality. Qed.

Lemma fits_params o T : fits T o ->
  op_params (simple_of o) (option_map gt T) = Ok (map (fun t => Some (gt t)) (params o)).
Proof. intros [->| ->]; [apply params_none|apply params_some]. Qed.

Lemma fits_dec o T : fits T o \/ exists t, T = Some t /\ t <> result o.
Proof.
  destruct T as [t|]; [|left; left; reflexivity]. destruct (ty_dec t (result o)) as [->|N]; [left; right; reflexivity|eauto].
Qed.

(** Features. *)
Lemma err_inj {A} (a b : text) : @Err A a = Err b -> b = a.
Proof. congruence. Qed.

Lemma precheck_err s e : g_precheck s = Err e ->
  forall T before, wrong T before (SExp s) e.
Proof.
  unfold g_precheck, not_supported. intros E T before.
  destruct (s_binding s) as [|b bs] eqn:H0; cbn [negb] in E.
  2: { apply err_inj in E. subst e.
       eapply (w_feature _ _ s []); [reflexivity|repeat constructor; cbn; congruence|cbn; rewrite H0; discriminate]. }
  destruct (s_type s) as [|b bs] eqn:H1; cbn [negb] in E.
  2: { apply err_inj in E. subst e.
       eapply (w_feature _ _ s [_]); [reflexivity|repeat constructor; cbn; congruence|cbn; rewrite H1; discriminate]. }
  destruct (s_auxint s) as [b|] eqn:H2.
  { apply err_inj in E. subst e.
       eapply (w_feature _ _ s [_; _]); [reflexivity|repeat constructor; cbn; congruence|cbn; rewrite H2; discriminate]. }
  destruct (s_aux s) as [b|] eqn:H3.
  { apply err_inj in E. subst e.
       eapply (w_feature _ _ s [_; _; _]); [reflexivity|repeat constructor; cbn; congruence|cbn; rewrite H3; discriminate]. }
  destruct (s_ellipsis s) eqn:H4.
  { apply err_inj in E. subst e.
       eapply (w_feature _ _ s [_; _; _; _]); [reflexivity|repeat constructor; cbn; congruence|cbn; exact H4]. }
  destruct (s_trailing s) eqn:H5.
  { apply err_inj in E. subst e.
       eapply (w_feature _ _ s [_; _; _; _; _]); [reflexivity|repeat constructor; cbn; congruence|cbn; exact H5]. }
  assert (B : bare s) by (repeat split; assumption).
  destruct (s_op s) as [c| |] eqn:Ho.
  - destruct (lookup_op operations c) as [k|] eqn:L; [discriminate|]. apply err_inj in E. subst e.
    change (str "not supported: " ++ str "opcode " ++ c) with (str "not supported: opcode " ++ c).
    apply w_opcode; [exact B|exact Ho|]. intros o ->. rewrite lookup_opcode in L. discriminate.
  - apply err_inj in E. subst e. apply w_unexpanded; [exact B|]. intros c. rewrite Ho. discriminate.
  - apply err_inj in E. subst e. apply w_unexpanded; [exact B|]. intros c. rewrite Ho. discriminate.
Qed.

Lemma feature_precheck s pre used name post :
  features s = pre ++ (used, name) :: post -> Forall (fun f => ~ fst f) pre -> used ->
  g_precheck s = Err (str "not supported: " ++ str name).
Proof.
  unfold features, g_precheck. intros E F U.
  destruct pre as [|p1 pre]; cbn [app] in E.
  { injection E as <- <- _. destruct (s_binding s); [elim U; reflexivity|reflexivity]. }
  injection E as <- E. inversion F as [|? ? N1 F1]; subst. clear F. cbn [fst] in N1.
  destruct (s_binding s); [clear N1|elim N1; discriminate]. cbn [negb].
  destruct pre as [|p1 pre]; cbn [app] in E.
  { injection E as <- <- _. destruct (s_type s); [elim U; reflexivity|reflexivity]. }
  injection E as <- E. inversion F1 as [|? ? N1 F2]; subst. clear F1. cbn [fst] in N1.
  destruct (s_type s); [clear N1|elim N1; discriminate]. cbn [negb].
  destruct pre as [|p1 pre]; cbn [app] in E.
  { injection E as <- <- _. destruct (s_auxint s); [reflexivity|elim U; reflexivity]. }
  injection E as <- E. inversion F2 as [|? ? N1 F1]; subst. clear F2. cbn [fst] in N1.
  destruct (s_auxint s); [elim N1; discriminate|clear N1].
  destruct pre as [|p1 pre]; cbn [app] in E.
  { injection E as <- <- _. destruct (s_aux s); [reflexivity|elim U; reflexivity]. }
  injection E as <- E. inversion F1 as [|? ? N1 F2]; subst. clear F1. cbn [fst] in N1.
  destruct (s_aux s); [elim N1; discriminate|clear N1].
  destruct pre as [|p1 pre]; cbn [app] in E.
  { injection E as <- <- _. rewrite U. reflexivity. }
  injection E as <- E. inversion F2 as [|? ? N1 F1]; subst. clear F2. cbn [fst] in N1.
  destruct (s_ellipsis s); [elim N1; reflexivity|clear N1].
  destruct pre as [|p1 pre]; cbn [app] in E.
  { injection E as <- <- _. rewrite U. reflexivity. }
  injection E as <- E. destruct pre; discriminate.
Qed.

Lemma lookup_none c : (forall o, c <> opcode_of o) -> lookup_op operations c = None.
Proof.
  intros H. destruct (lookup_op operations c) as [k|] eqn:L; [|reflexivity].
  apply lookup_some in L. destruct L as [o [E _]]. elim (H o E).
Qed.

(** The declarations made so far are the variables met so far. *)
Definition same (ds before : list (text * ty)) : Prop := forall x t, In (x, t) ds <-> In (x, t) before.

Lemma same_agree ds before G : same ds before ->
  (forall x t, In (x, t) before -> G x = t) <-> agree G ds.
Proof. intros S. split; intros H x t Hin; apply H; apply S; exact Hin. Qed.

Lemma same_add G ds before xs : same ds before -> agree G ds ->
  same (add_vars G ds xs) (before ++ typings G xs).
Proof.
  intros S A x t. rewrite add_vars_firsts, !in_app_iff. unfold typings. rewrite !in_map_iff.
  assert (Hf : forall seen l y, In y (firsts seen l) -> In y l).
  { clear. intros seen l. revert seen. induction l as [|z l IH]; intros seen y; cbn [firsts]; [auto|].
    destruct (existsb _ seen); cbn; intros; [right; eauto|]. destruct H as [H|H]; [auto|right; eauto]. }
  assert (Hb : forall l seen y, In y l -> In y seen \/ In y (firsts seen l)).
  { clear. induction l as [|z l IH]; intros seen y; cbn [firsts]; [intros []|].
    destruct (existsb (text_eqb z) seen) eqn:E; intros [->|H]; auto.
    - left. apply existsb_exists in E. destruct E as [w [Hw E]]. apply text_eqb_eq in E. congruence.
    - right; left; reflexivity.
    - destruct (IH (z :: seen) y H) as [[->|H']|H']; [right; left; reflexivity|left; exact H'|right; right; exact H']. }
  split.
  - intros [H|[y [E H]]]; [left; apply S; exact H|right]. exists y. split; [exact E|eapply Hf; exact H].
  - intros [H|[y [E H]]]; [left; apply S; exact H|]. injection E as <- <-.
    destruct (Hb xs (names ds) y H) as [H'|H'].
    + left. apply in_map_iff in H'. destruct H' as [[z u] [Ez Hz]]. cbn in Ez. subst z.
      rewrite (A y u Hz). exact Hz.
    + right. exists y. split; [reflexivity|exact H'].
Qed.

Lemma lookup_same pre ds x t : NoDup (names ds) -> In (x, t) ds -> lookup_var (Gst pre ds) x = Some (sv x t).
Proof.
  intros N H. destruct (lookup_gst pre ds x) as [[t' [L H']]|[_ H']].
  - assert (t' = t) as ->; [|exact L]. pose proof (lookup_agree ds N) as A. rewrite <- (A _ _ H), <- (A _ _ H'). reflexivity.
  - elim H'. apply in_map_iff. exists (x, t). auto.
Qed.

Lemma add_nodup G xs : forall ds, NoDup (names ds) -> NoDup (names (add_vars G ds xs)).
Proof.
  induction xs as [|x xs IH]; intros ds N; cbn [add_vars]; [exact N|]. apply IH.
  destruct (seen x (names ds)) eqn:E; [exact N|]. unfold names. rewrite map_app. apply NoDup_snoc; [exact N|].
  cbn. rewrite <- seen_in. unfold names in E. congruence.
Qed.

(** An error in the argument loop. *)
Lemma args_err c : forall args ts i g e, List.length args = List.length ts ->
  g_args c (fun a => g_eval a) i args (map (fun t => Some (gt t)) ts) g = Err e ->
  exists pre a post t rs g' e', args = pre ++ a :: post /\ nth_error ts (List.length pre) = Some t /\
    g_args c (fun a => g_eval a) i pre (map (fun t => Some (gt t)) (firstn (List.length pre) ts)) g = Ok (rs, g') /\
    g_eval a (Some (gt t)) g' = Err e' /\
    e = c ++ str ": evaluate argument " ++ dec (i + List.length pre) ++ str ": " ++ e'.
Proof.
  induction args as [|a args IH]; intros [|t ts] i g e L E; try discriminate.
  cbn [g_args map] in E. destruct (g_eval a (Some (gt t)) g) as [[r g1]|e1|] eqn:Ea; cbn [wrap bind] in E; try discriminate.
  - destruct (g_args c (fun a => g_eval a) (S i) args (map (fun t => Some (gt t)) ts) g1) as [[rs' g2]|e2|] eqn:Er;
      cbn [bind] in E; try discriminate.
    injection E as ->. cbn in L.
    destruct (IH ts (S i) g1 e ltac:(lia) Er) as [pre [b [post [u [rs [g' [e' [-> [Hn [Hg [He ->]]]]]]]]]]].
    exists (a :: pre), b, post, u, (r :: rs), g', e'. cbn [app List.length nth_error firstn map].
    split; [reflexivity|]. split; [exact Hn|]. split.
    + cbn [g_args]. rewrite Ea. cbn [wrap bind]. rewrite Hg. reflexivity.
    + split; [exact He|]. replace (i + S (List.length pre)) with (S i + List.length pre) by lia. reflexivity.
  - apply err_inj in E. subst e. exists [], a, args, t, [], g, e1. cbn [app List.length nth_error firstn map g_args]. split; [reflexivity|]. split; [reflexivity|].
    split; [reflexivity|]. split; [exact Ea|]. rewrite Nat.add_0_r. rewrite <- !app_assoc. reflexivity.
Qed.

Lemma args_fail c pre a post ts t rs g g' e : forall i,
  List.length pre < List.length ts ->
  nth_error ts (List.length pre) = Some t ->
  g_args c (fun a => g_eval a) i pre (map (fun t => Some (gt t)) (firstn (List.length pre) ts)) g = Ok (rs, g') ->
  g_eval a (Some (gt t)) g' = Err e ->
  g_args c (fun a => g_eval a) i (pre ++ a :: post) (map (fun t => Some (gt t)) ts) g =
    Err (c ++ str ": evaluate argument " ++ dec (i + List.length pre) ++ str ": " ++ e).
Proof.
  revert ts rs g. induction pre as [|b pre IH]; intros [|u ts] rs g i L Hn Hg He; cbn in L; try lia.
  - cbn in Hn. injection Hn as ->. cbn in Hg. injection Hg as <- <-. cbn [app g_args map]. rewrite He.
    cbn [wrap bind List.length]. rewrite Nat.add_0_r. rewrite <- !app_assoc. reflexivity.
  - cbn [app g_args map List.length firstn nth_error] in *.
    destruct (g_eval b (Some (gt u)) g) as [[r g1]|e1|] eqn:Eb; cbn [wrap bind] in *; try discriminate.
    destruct (g_args c (fun a => g_eval a) (S i) pre (map (fun t => Some (gt t)) (firstn (List.length pre) ts)) g1) as [[rs' g2]|e2|] eqn:Er;
      cbn [bind] in Hg; try discriminate.
    injection Hg as <- <-. rewrite (IH ts rs' g1 (S i)); [|lia|exact Hn|exact Er|exact He]. cbn [bind].
    replace (i + S (List.length pre)) with (S i + List.length pre) by lia. reflexivity.
Qed.

Lemma evaluate_ok o args : map v_type args = map gt (params o) -> exists r, op_evaluate (simple_of o) args = Ok r.
Proof.
  intros Hm.
  assert (Hx : args = map (fun '(e, t) => sv e t) (combine (map v_expr args) (params o))).
  { revert Hm. generalize (params o) as ps. induction args as [|[e t] args IH]; intros [|p ps] Hm; try discriminate; [reflexivity|].
    cbn in Hm. inversion Hm; subst. cbn. unfold sv at 1. f_equal. apply IH. assumption. }
  rewrite Hx. unfold sv. rewrite evaluate_typed; [eauto|].
  apply (f_equal (@List.length _)) in Hm. rewrite !map_length in *. exact Hm.
Qed.

Definition errs (v : value) : Prop := forall T pre ds before e,
  same ds before -> NoDup (names ds) ->
  g_eval v (option_map gt T) (Gst pre ds) = Err e -> blame T before v e.

Lemma variable_err x T pre ds before e : same ds before -> NoDup (names ds) ->
  g_variable x (option_map gt T) (Gst pre ds) = Err e -> wrong T before (Var x) e.
Proof.
  intros S N E. destruct (lookup_gst pre ds x) as [[t' [L Hin]]|[L Hn]]; unfold g_variable in E; rewrite L in E.
  - destruct T as [t|]; cbn [option_map] in E; [|discriminate]. cbn [v_type sv] in E.
    destruct (identical (gt t') (gt t)) eqn:I; [discriminate|]. apply err_inj in E. subst e.
    eapply w_inconsistent; [reflexivity|apply S; exact Hin|]. intros ->. rewrite identical_refl in I. discriminate.
  - destruct T as [t|]; cbn [option_map] in E.
    + rewrite typesort_gt in E. discriminate.
    + apply err_inj in E. subst e. apply w_untyped; [reflexivity|]. intros t Hin. apply S in Hin. apply Hn.
      apply in_map_iff. exists (x, t). auto.
Qed.

Lemma Forall_firstn_app {A} (P : A -> Prop) a b l : Forall P l -> l = a ++ b -> Forall P a.
Proof. intros H ->. apply Forall_app in H. apply H. Qed.

Lemma firstn_lt {A} (l : list A) n x : nth_error l n = Some x -> List.length (firstn n l) = n /\ n < List.length l.
Proof.
  intros H. assert (n < List.length l) by (apply nth_error_Some; congruence). split; [|assumption].
  rewrite firstn_length. lia.
Qed.

Lemma typed_states G args ts c i pre ds : Forall2 (typed G) args ts -> agree G ds ->
  g_args c (fun a => g_eval a) i args (map (fun t => Some (gt t)) ts) (Gst pre ds) =
  Ok (map (fun '(e, t) => sv e t) (combine (map vexpr args) ts), Gst pre (add_vars G ds (flat_map value_vars args))).
Proof.
  intros F A. apply args_typed; [|exact A]. induction F; constructor; auto. apply eval_typed. assumption.
Qed.

Lemma eval_err v : errs v.
Proof.
  induction v as [s IH|e0|x|] using value_ind'; intros T pre ds before e S N E; cbn [g_eval] in E.
  - destruct (g_precheck s) as [[c k]|e'|] eqn:P; cbn [bind] in E; try discriminate.
    2: { injection E as ->. apply b_here. apply precheck_err. exact P. }
    apply precheck_inv in P. destruct P as [B [o [O [-> ->]]]].
    destruct (fits_dec o T) as [HT|[t [-> Nt]]].
    2: { cbn [option_map] in E. rewrite params_some_err in E by exact Nt. cbn [wrap bind] in E. injection E as <-.
         apply b_here. rewrite <- app_assoc. change ((str ": ") ++ str "invalid return type " ++ type_name t)
           with (str ": invalid return type " ++ type_name t). eapply w_result; eauto. }
    rewrite (fits_params o T HT) in E. cbn [wrap bind] in E. rewrite map_length in E.
    destruct (Nat.eqb_spec (List.length (params o)) (List.length (s_args s))) as [L|L]; cbn [negb] in E.
    2: { apply err_inj in E. subst e. apply b_here. apply w_arity; auto. }
    destruct (g_args _ _ _ _ _ _) as [[args g1]|e'|] eqn:A; cbn [bind] in E; try discriminate.
    + destruct (args_sound _ _ ltac:(apply Forall_forall; intros; apply eval_sound) _ _ _ _ _ _ (eq_sym L) A) as [Ts _].
      destruct (evaluate_ok o args Ts) as [r Hr]. rewrite Hr in E. cbn [wrap bind] in E. discriminate.
    + injection E as ->. apply args_err in A; [|symmetry; exact L].
      destruct A as [ap [a [post [t [rs [g' [e' [Ea [Hn [Hg [He ->]]]]]]]]]]]. cbn [Nat.add].
      destruct (firstn_lt _ _ _ Hn) as [Lf _].
      destruct (args_sound (opcode_of o) ap) with (ts := firstn (List.length ap) (params o)) (i := 0) (pre := pre) (ds := ds) (rs := rs) (g' := g')
        as [_ [ds' [-> [X Ty]]]]; [apply Forall_forall; intros; apply eval_sound|symmetry; exact Lf|exact Hg|].
      pose proof (lookup_agree ds' (proj2 X N)) as AG.
      pose proof (ext_agree _ _ _ X AG) as AG0.
      set (G := lookup_ty ds') in *. specialize (Ty G AG).
      pose proof (typed_states G ap _ (opcode_of o) 0 pre ds Ty AG0) as St. rewrite Hg in St. apply (f_equal (fun r => match r with Ok (_, g) => g | _ => Gst pre ds end)) in St. cbv beta iota in St.
      eapply b_arg with (G := G) (pre := ap) (a := a) (post := post) (t := t); eauto.
      * apply (same_agree ds before G S). exact AG0.
      * rewrite Forall_forall in IH. apply (IH a) with (pre := pre) (ds := add_vars G ds (flat_map value_vars ap)).
        -- rewrite Ea. apply in_app_iff. right; left; reflexivity.
        -- apply same_add; assumption.
        -- apply add_nodup. exact N.
        -- cbn [option_map]. rewrite <- He. apply f_equal. symmetry. exact St.
  - apply err_inj in E. subst e. apply b_here. apply w_expr.
  - apply b_here. eapply variable_err; eauto.
  - apply err_inj in E. subst e. apply b_here. apply w_nil.
Qed.

(** Conversely. *)
Lemma wrong_err T before v e : wrong T before v e ->
  forall pre ds, same ds before -> NoDup (names ds) ->
  g_eval v (option_map gt T) (Gst pre ds) = Err e.
Proof.
  intros [s fp used name fq E F U|s B O|s c B O H|s o t B O -> H|s o B O HT H|x -> H|x t t' -> Hin H|e0|] pre ds S N;
    cbn [g_eval].
  - rewrite (feature_precheck _ _ _ _ _ E F U). reflexivity.
  - destruct B as (Hb & Ht & Hi & Ha & He & Hr). unfold g_precheck. rewrite Hb, Ht, Hi, Ha, He, Hr. cbn [negb].
    destruct (s_op s) as [c| |]; [elim (O c); reflexivity|reflexivity|reflexivity].
  - destruct B as (Hb & Ht & Hi & Ha & He & Hr). unfold g_precheck. rewrite Hb, Ht, Hi, Ha, He, Hr, O. cbn [negb].
    rewrite lookup_none by exact H. reflexivity.
  - rewrite (precheck_typed s o B O). cbn [bind option_map]. rewrite params_some_err by exact H. cbn [wrap bind].
    rewrite <- app_assoc. reflexivity.
  - rewrite (precheck_typed s o B O). cbn [bind]. rewrite (fits_params o T HT). cbn [wrap bind].
    rewrite map_length. destruct (Nat.eqb_spec (List.length (params o)) (List.length (s_args s))) as [L|_]; [congruence|].
    reflexivity.
  - unfold g_variable. destruct (lookup_gst pre ds x) as [[t [_ Hin]]|[-> _]]; [|reflexivity].
    elim (H t). apply S. exact Hin.
  - unfold g_variable. rewrite (lookup_same pre ds x t') by (try assumption; apply S; exact Hin). cbn [option_map v_type sv].
    destruct (identical (gt t') (gt t)) eqn:I; [|reflexivity]. apply identical_gt in I. congruence.
  - reflexivity.
  - reflexivity.
Qed.

Lemma blame_err T before v e : blame T before v e ->
  forall pre ds, same ds before -> NoDup (names ds) ->
  g_eval v (option_map gt T) (Gst pre ds) = Err e.
Proof.
  induction 1 as [T before v e W|T before s o ap a post t G e B O HT Ea L HG Ty Hn _ IH]; intros pre ds S N.
  - eapply wrong_err; eauto.
  - cbn [g_eval]. rewrite (precheck_typed s o B O). cbn [bind]. rewrite (fits_params o T HT). cbn [wrap bind].
    rewrite map_length. rewrite L, Nat.eqb_refl. cbn [negb].
    pose proof (proj1 (same_agree ds before G S) HG) as AG.
    destruct (firstn_lt _ _ _ Hn) as [_ Lt].
    pose proof (typed_states G ap _ (opcode_of o) 0 pre ds Ty AG) as St.
    rewrite Ea. rewrite (args_fail _ _ _ _ _ _ _ _ _ _ 0 Lt Hn St (IH pre _ (same_add G ds before _ S AG) (add_nodup G _ ds N))).
    reflexivity.
Qed.

(** Rules. *)
Lemma generate_start r : rule_bad r = [] ->
  g_generate r {| g_out := []; g_vars := [] |} =
  (let* mg := g_eval (r_match r) None (Gst (header ++ comment_block (rule_text r)) []) in
   let '(m, g) := mg in
   match r_cond r with
   | Some _ => Err (not_supported (str "rule conditions"))
   | None =>
       match r_block r with
       | _ :: _ => Err (not_supported (str "rule blocks"))
       | [] =>
           let* rg := g_eval (r_result r) (Some (v_type m)) g in
           let '(x, g) := rg in
           let g := g_printf (str "(assert (not (= " ++ v_expr m ++ str " " ++ v_expr x ++ str ")))" ++ [nl]) g in
           let g := g_printf (str "(check-sat)" ++ [nl]) g in
           let g := g_printf (str "(exit)" ++ [nl]) g in
           Ok g
       end
   end).
Proof.
  intros Hb. unfold g_generate. rewrite Bytes_eq. cbn [node_bad node_text]. rewrite Hb. cbn [bind].
  do 2 f_equal. unfold Gst, g_printf, header, comment_block. cbn [g_out g_vars map List.concat rev].
  f_equal. rewrite ?app_nil_r, <- ?app_assoc. reflexivity.
Qed.

Lemma generate_bad r t ts : rule_bad r = t :: ts ->
  Generate r = Err (str "assertion failure: unexpected type " ++ t).
Proof.
  intros H. unfold Generate, g_generate. rewrite Bytes_eq. cbn [node_bad]. rewrite H. reflexivity.
Qed.

Lemma match_typed G r s t p : r_match r = SExp s -> typed G (r_match r) t ->
  g_eval (r_match r) None (Gst p []) =
  Ok (sv (vexpr (r_match r)) t, Gst p (add_vars G [] (value_vars (r_match r)))).
Proof.
  intros M T. rewrite M in *. inversion T as [|s' o B O F]; subst. apply (sexp_typed G s o None); auto.
  - clear -F. induction F; constructor; auto. apply eval_typed. assumption.
  - intros ? ? [].
Qed.

Lemma same_nil : same [] []. Proof. intros x t. tauto. Qed.

Lemma same_start G xs : same (add_vars G [] xs) (typings G xs).
Proof. apply (same_add G [] [] xs same_nil). intros ? ? []. Qed.

Lemma generate_blame r e : rule_blame r e -> Generate r = Err e.
Proof.
  intros [t ts H|msg Hb B|G s t Hb M T C|G s t Hb M T C K|G s t msg Hb M T C K B].
  - eapply generate_bad; exact H.
  - unfold Generate. rewrite generate_start by exact Hb.
    change (@None gtype) with (option_map gt None).
    rewrite (blame_err _ _ _ _ B _ [] same_nil (NoDup_nil _)). reflexivity.
  - unfold Generate. rewrite generate_start by exact Hb. rewrite (match_typed G r s t _ M T). cbn [bind].
    destruct (r_cond r); [reflexivity|congruence].
  - unfold Generate. rewrite generate_start by exact Hb. rewrite (match_typed G r s t _ M T). cbn [bind].
    rewrite C. destruct (r_block r); [congruence|reflexivity].
  - unfold Generate. rewrite generate_start by exact Hb. rewrite (match_typed G r s t _ M T). cbn [bind].
    rewrite C, K. cbn [v_type sv]. change (Some (gt t)) with (option_map gt (Some t)).
    rewrite (blame_err _ _ _ _ B _ _ (same_start G _) (add_nodup G _ [] (NoDup_nil _))). reflexivity.
Qed.

Lemma generate_err r e : Generate r = Err e -> rule_blame r e.
Proof.
  destruct (rule_bad r) as [|t ts] eqn:Hb.
  2: { rewrite (generate_bad r t ts Hb). intros E. apply err_inj in E. subst e. eapply rb_print; exact Hb. }
  unfold Generate. rewrite generate_start by exact Hb.
  set (p := header ++ comment_block (rule_text r)). intros E.
  destruct (g_eval (r_match r) None (Gst p [])) as [[m g1]|e1|] eqn:Em; cbn [bind] in E; try discriminate.
  2: { apply err_inj in E. subst e1. apply rb_match; [exact Hb|].
       exact (eval_err (r_match r) None p [] [] e same_nil (NoDup_nil _) Em). }
  destruct (r_match r) as [sm|e0|x|] eqn:M; try discriminate.
  destruct (sexp_sound sm None) with (pre := p) (ds := @nil (text * ty)) (r := m) (g' := g1)
    as [o [ds1 [_ [Tm [-> [X1 T1]]]]]]; auto.
  { apply Forall_forall. intros a _. apply eval_sound. }
  assert (N : NoDup (names ds1)) by (apply X1; constructor).
  pose proof (lookup_agree ds1 N) as A1. set (G := lookup_ty ds1) in *.
  destruct (T1 G A1) as [BB [O F]].
  assert (T : typed G (r_match r) (result o)) by (rewrite M; constructor; assumption).
  pose proof (match_typed G r sm (result o) p M T) as St. rewrite M, Em in St.
  destruct (r_cond r) as [c|] eqn:C; cbn [bind] in E.
  { apply err_inj in E. subst e. eapply rb_cond; eauto. congruence. }
  destruct (r_block r) as [|b bs] eqn:K; cbn [bind] in E.
  2: { apply err_inj in E. subst e. eapply rb_block; eauto. congruence. }
  assert (Em2 : m = sv (vexpr (SExp sm)) (result o)) by congruence.
  assert (Eg : Gst p ds1 = Gst p (add_vars G [] (value_vars (SExp sm)))) by congruence.
  subst m. cbn [v_type sv] in E. rewrite Eg in E.
  destruct (g_eval (r_result r) (Some (gt (result o))) (Gst p (add_vars G [] (value_vars (SExp sm))))) as [[x g2]|e2|] eqn:Er;
    cbn [bind] in E; try discriminate.
  apply err_inj in E. subst e2. eapply rb_result with (G := G) (t := result o); eauto.
  eapply (eval_err (r_result r) (Some (result o))); [apply same_start|apply add_nodup; constructor|].
  rewrite M. exact Er.
Qed.

Lemma generate_err_iff r e : Generate r = Err e <-> rule_blame r e.
Proof. split; [apply generate_err|apply generate_blame]. Qed.
