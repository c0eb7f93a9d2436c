(** Facts about the generation loop and about Generate's complaints. *)
From Verif Require Import Text GoAst Ast Walk Expand Printer Smt Cmd Path SpecTree TreeFacts SpecExpand ExpandFacts
  FeatureFacts SpecPrint PrintFacts SpecSmt SmtGen SpecCmd CmdFacts.
From Coq Require Import Arith Lia.

Lemma outputs_names path i rs l log : outputs Generate path i rs l log ->
  forall p s, In (p, s) l -> exists j ds r, i <= j /\ four_digits j ds /\ p = path (ds ++ str ".smt2") /\
    nth_error rs (j - i) = Some r /\ Generate r = Ok s.
Proof.
  induction 1 as [|i r rs ds s l log G D _ IH|i r rs e l log G _ IH]; intros p s' Hin.
  - contradiction.
  - destruct Hin as [E|Hin].
    + inversion E; subst. exists i, ds, r. rewrite Nat.sub_diag. auto.
    + destruct (IH p s' Hin) as [j [ds' [r' (A & B & C & N & E)]]]. exists j, ds', r'.
      replace (j - i) with (S (j - S i)) by lia. cbn. repeat split; auto; try lia; apply B.
  - destruct (IH p s' Hin) as [j [ds' [r' (A & B & C & N & E)]]]. exists j, ds', r'.
    replace (j - i) with (S (j - S i)) by lia. cbn. repeat split; auto; try lia; apply B.
Qed.
Lemma outputs_complete path i rs l log : outputs Generate path i rs l log ->
  forall j r s ds, nth_error rs j = Some r -> Generate r = Ok s -> four_digits (i + j) ds -> In (path (ds ++ str ".smt2"), s) l.
Proof.
  induction 1 as [|i r rs ds s l log G D _ IH|i r rs e l log G _ IH]; intros j r' s' ds' Hj Hg Hd.
  - destruct j; discriminate.
  - destruct j as [|j]; cbn in Hj.
    + inversion Hj; subst. rewrite Nat.add_0_r in Hd. rewrite (four_digits_unique i ds' ds Hd D). left. congruence.
    + right. apply (IH j r' s' ds' Hj Hg). replace (S i + j) with (i + S j) by lia. exact Hd.
  - destruct j as [|j]; cbn in Hj.
    + inversion Hj; subst. congruence.
    + apply (IH j r' s' ds' Hj Hg). replace (S i + j) with (i + S j) by lia. exact Hd.
Qed.

Lemma digits_plain ds : Forall digit ds -> 4 <= List.length ds -> plain_name (ds ++ str ".smt2").
Proof.
  intros D L. repeat split.
  - destruct ds; discriminate.
  - intros H. apply in_app_iff in H. destruct H as [H|H].
    + rewrite Forall_forall in D. apply D in H. unfold digit in H. vm_compute in H. lia.
    + vm_compute in H. intuition discriminate.
  - intros E. apply (f_equal (@List.length _)) in E. rewrite app_length in E. cbn in E. lia.
  - intros E. apply (f_equal (@List.length _)) in E. rewrite app_length in E. cbn in E. lia.
Qed.

Lemma names_distinct dir i j ds es : four_digits i ds -> four_digits j es ->
  Join dir (ds ++ str ".smt2") = Join dir (es ++ str ".smt2") -> i = j.
Proof.
  intros (D & N & L & _) (D' & N' & L' & _) E. destruct (join_plain dir) as [pre H].
  rewrite !H in E by (apply digits_plain; assumption). apply app_inv_head in E. apply app_inv_tail in E. congruence.
Qed.

Lemma outputs_nodup dir i rs l log : outputs Generate (Join dir) i rs l log -> NoDup (map fst l).
Proof.
  induction 1 as [|i r rs ds s l log G D O IH|i r rs e l log G _ IH]; cbn [map fst]; [constructor| |exact IH].
  constructor; [|exact IH]. intros H. apply in_map_iff in H. destruct H as [[p s'] [E H]]. cbn in E. subst p.
  destruct (outputs_names _ _ _ _ _ O _ _ H) as [j [ds' [r' (A & B & C & _)]]].
  apply (names_distinct dir i j ds ds' D B) in C. lia.
Qed.

Lemma outputs_app gen path a b : forall i l l' log log', outputs gen path i a l log -> outputs gen path (i + List.length a) b l' log' ->
  outputs gen path i (a ++ b) (l ++ l') (log ++ log').
Proof.
  intros i l l' log log' H. revert l' log' b. induction H; intros l' log' b H'; cbn [app List.length] in *.
  - rewrite Nat.add_0_r in H'. exact H'.
  - apply out_script; auto. apply IHoutputs. rewrite <- plus_n_Sm in H'. exact H'.
  - eapply out_none; eauto. apply IHoutputs. rewrite <- plus_n_Sm in H'. exact H'.
Qed.

Section Loop.
  Variable join : text -> text -> text.
  Variable write_failure : text -> text -> option (option text * text).
  Variable outdir : text.

  Lemma gen_loop_spec rs : forall i w, Forall (fun r => rule_bad r = []) rs ->
    match gen_loop join write_failure outdir i rs w with
    | Exit w' None => exists l log, outputs Generate (join outdir) i rs l log /\
        w_files w' = w_files w ++ l /\ w_log w' = w_log w ++ log /\
        Forall (fun ps => write_failure (fst ps) (snd ps) = None) l
    | Exit w' (Some e) => exists pre r post l log ds s part,
        rs = pre ++ r :: post /\ outputs Generate (join outdir) i pre l log /\
        Forall (fun ps => write_failure (fst ps) (snd ps) = None) l /\
        Generate r = Ok s /\ four_digits (i + List.length pre) ds /\
        write_failure (join outdir (ds ++ str ".smt2")) s = Some (part, e) /\
        w_files w' = w_files w ++ l ++ match part with Some p => [(join outdir (ds ++ str ".smt2"), p)] | None => [] end /\
        w_log w' = w_log w ++ log ++ [str "rule: " ++ rule_text r]
    | Crash _ _ => False
    end.
  Proof.
    induction rs as [|r rs IH]; intros i w Hb; cbn [gen_loop].
    - exists [], []. rewrite !app_nil_r. repeat split; constructor.
    - inversion Hb; subst. rewrite Bytes_eq. cbn [node_bad node_text]. rewrite H1.
      destruct (Generate r) as [s|e|m] eqn:G; [| |elim (generate_no_panic r m G)].
      + pose proof (dec4_four i) as D.
        destruct (write_failure (join outdir (dec4 i ++ str ".smt2")) s) as [[part e]|] eqn:F.
        * assert (X : forall w', w_files w' = w_files w ++ match part with Some p => [(join outdir (dec4 i ++ str ".smt2"), p)] | None => [] end ->
             w_log w' = w_log w ++ [str "rule: " ++ rule_text r] ->
             match Exit w' (Some e) with Exit w' (Some e) => exists pre r0 post l log ds s part,
              r :: rs = pre ++ r0 :: post /\ outputs Generate (join outdir) i pre l log /\
              Forall (fun ps => write_failure (fst ps) (snd ps) = None) l /\
              Generate r0 = Ok s /\ four_digits (i + List.length pre) ds /\
              write_failure (join outdir (ds ++ str ".smt2")) s = Some (part, e) /\
              w_files w' = w_files w ++ l ++ match part with Some p => [(join outdir (ds ++ str ".smt2"), p)] | None => [] end /\
              w_log w' = w_log w ++ log ++ [str "rule: " ++ rule_text r0] | _ => False end).
          { intros w' Ef El. exists [], r, rs, [], [], (dec4 i), s, part. cbn [app List.length]. rewrite Nat.add_0_r.
            repeat split; auto; try constructor; apply D. }
          destruct part as [p|]; apply X; rewrite ?files_write, ?files_logf, ?log_write, ?log_logf, ?app_nil_r; reflexivity.
        * specialize (IH (S i) (logf (str "smt2: written to " ++ join outdir (dec4 i ++ str ".smt2"))
             (write_file (join outdir (dec4 i ++ str ".smt2")) s (logf (str "rule: " ++ rule_text r) w))) H2).
          destruct (gen_loop _ _ _ _ _ _) as [w' [e|]|]; [..|contradiction].
          { destruct IH as [pre [r0 [post [l [log [ds [s' [part (-> & O & Fl & G' & D' & F' & Ef & El)]]]]]]]].
            exists (r :: pre), r0, post, ((join outdir (dec4 i ++ str ".smt2"), s) :: l).
            eexists (_ :: _ :: log), ds, s', part. cbn [app List.length]. rewrite <- plus_n_Sm.
            split; [reflexivity|]. split; [apply out_script; eauto|]. split; [constructor; auto|].
            split; [exact G'|]. split; [exact D'|]. split; [exact F'|].
            rewrite Ef, El. rewrite ?files_logf, ?files_write, ?files_logf, ?log_logf, ?log_write, ?log_logf. rewrite <- !app_assoc. split; reflexivity. }
          { destruct IH as [l [log (O & Ef & El & Fl)]]. eexists (_ :: l), (_ :: _ :: log).
            split; [apply out_script; eauto|]. rewrite Ef, El. rewrite ?files_logf, ?files_write, ?files_logf, ?log_logf, ?log_write, ?log_logf. rewrite <- !app_assoc.
            repeat split; auto. }
      + specialize (IH (S i) (logf (str "error: " ++ e) (logf (str "rule: " ++ rule_text r) w)) H2).
        destruct (gen_loop _ _ _ _ _ _) as [w' [e'|]|]; [..|contradiction].
        * destruct IH as [pre [r0 [post [l [log [ds [s' [part (-> & O & Fl & G' & D' & F' & Ef & El)]]]]]]]].
          exists (r :: pre), r0, post, l.
          eexists (_ :: _ :: log), ds, s', part. cbn [app List.length]. rewrite <- plus_n_Sm.
          split; [reflexivity|]. split; [eapply out_none; eauto|]. split; [exact Fl|].
          split; [exact G'|]. split; [exact D'|]. split; [exact F'|].
          rewrite Ef, El. rewrite ?files_logf, ?files_write, ?files_logf, ?log_logf, ?log_write, ?log_logf. rewrite <- !app_assoc. split; reflexivity.
        * destruct IH as [l [log (O & Ef & El & Fl)]]. exists l. eexists (_ :: _ :: log).
          split; [eapply out_none; eauto|]. rewrite Ef, El. rewrite ?files_logf, ?files_write, ?files_logf, ?log_logf, ?log_write, ?log_logf. rewrite <- !app_assoc.
          repeat split; auto.
  Qed.
End Loop.

(** * Complaints *)
Definition clean_value (v : value) : Prop :=
  plain_value v /\ forall s, In s (value_sexprs v) -> bare s.

Lemma clean_sexp s : clean_value (SExp s) -> (exists c, s_op s = Opcode c) /\ bare s /\ Forall clean_value (s_args s).
Proof.
  intros [P B]. apply plain_sexp in P. destruct P as [O A]. split; [destruct (s_op s); [eauto|contradiction..]|].
  split; [apply B; left; reflexivity|]. apply Forall_forall. intros a Ha. rewrite Forall_forall in A. split; [auto|].
  intros x Hx. apply B. right. apply in_flat_map. eauto.
Qed.

Lemma lookup_none c : lookup_op operations c = None -> operator_of c = None.
Proof.
  intros H. destruct (operator_of c) as [o|] eqn:E; [|reflexivity]. apply operator_of_some in E. subst c.
  rewrite lookup_opcode in H. discriminate.
Qed.
Lemma params_err o t e : op_params (simple_of o) (Some (gt t)) = Err e -> t <> result o /\ e = str "invalid return type " ++ ty_name t.
Proof. destruct o as [[] []|[]], t as [|[]]; intros E; try discriminate; inversion E; split; try discriminate; reflexivity. Qed.

Lemma evaluate_ok o args e : map v_type args = map gt (params o) -> op_evaluate (simple_of o) args <> Err e.
Proof.
  intros Hm E.
  assert (Hx : args = map (fun '(e, t) => sv e t) (combine (map v_expr args) (params o))).
  { revert Hm. generalize (params o) as ps. clear E. induction args as [|[x t] args IH]; intros [|p ps] Hm; try discriminate; [reflexivity|].
    cbn in Hm. inversion Hm; subst. cbn. unfold sv at 1. f_equal. apply IH. assumption. }
  rewrite Hx in E. unfold sv in E. rewrite evaluate_typed in E; [discriminate|].
  apply (f_equal (@List.length _)) in Hm. rewrite !map_length in *. exact Hm.
Qed.

Lemma Err_inj {A} (a b : text) : @Err A a = Err b -> a = b.
Proof. congruence. Qed.

Lemma args_complain o args : Forall (fun a => forall T pre ds e, g_eval a (option_map gt T) (Gst pre ds) = Err e -> complains a e) args ->
  forall ts i pre ds e, List.length args = List.length ts ->
  g_args (opcode_of o) (fun a => g_eval a) i args (map (fun t => Some (gt t)) ts) (Gst pre ds) = Err e ->
  exists j a e', nth_error args j = Some a /\ complains a e' /\ e = opcode_of o ++ str ": evaluate argument " ++ dec (i + j) ++ str ": " ++ e'.
Proof.
  induction 1 as [|a args Ha F IH]; intros ts i pre ds e L E; destruct ts as [|t ts]; try discriminate.
  cbn [g_args map] in E.
  destruct (g_eval a (Some (gt t)) (Gst pre ds)) as [[r g1]|x|] eqn:Ea; cbn [wrap bind] in E; [| |discriminate].
  - destruct (eval_sound a t pre ds r g1 Ea) as [Tr [ds1 [-> _]]].
    destruct (g_args _ _ _ _ _ _) as [[rs g2]|x|] eqn:Er; cbn [bind] in E; try discriminate.
    inversion E; subst. cbn in L. destruct (IH ts (S i) pre ds1 e ltac:(lia) Er) as [j [b [e' (N & C & ->)]]].
    exists (S j), b, e'. rewrite <- plus_n_Sm. auto.
  - exists 0, a, x. split; [reflexivity|]. split; [apply (Ha (Some t) pre ds x Ea)|]. rewrite Nat.add_0_r.
    apply Err_inj in E. rewrite <- E, <- !app_assoc. reflexivity.
Qed.

Lemma eval_complains v : clean_value v -> forall T pre ds e, g_eval v (option_map gt T) (Gst pre ds) = Err e -> complains v e.
Proof.
  induction v as [s IH|x|x|] using value_ind'; intros C T pre ds e E.
  - destruct (clean_sexp s C) as [[c O] [B A]]. cbn [g_eval] in E.
    destruct (g_precheck s) as [[c' k]|x|] eqn:P; cbn [bind] in E; [| |discriminate].
    + apply precheck_inv in P. destruct P as [_ [o [O' [-> ->]]]].
      assert (HP : op_params (simple_of o) (option_map gt T) = Ok (map (fun t => Some (gt t)) (params o)) \/
                   exists t x, T = Some t /\ op_params (simple_of o) (option_map gt T) = Err x).
      { destruct T as [t|]; cbn [option_map]; [|left; apply params_none].
        destruct (op_params (simple_of o) (Some (gt t))) as [ps|x|m] eqn:Q; [|right; eauto|].
        - left. rewrite <- Q. apply params_some_inv in Q. subst t. apply params_some.
        - elim (op_params_no_panic _ _ _ Q). }
      destruct HP as [HP|[t [x [-> HP]]]]; rewrite HP in E; cbn [wrap bind] in E.
      2: { apply params_err in HP. destruct HP as [N ->]. apply Err_inj in E. rewrite <- E, <- app_assoc. apply cp_type; assumption. }
      rewrite map_length in E.
      destruct (Nat.eqb_spec (List.length (params o)) (List.length (s_args s))) as [L|L]; cbn [negb] in E.
      2: { apply Err_inj in E. rewrite <- E. apply cp_count; auto. }
      destruct (g_args _ _ _ _ _ _) as [[args g1]|x|] eqn:G; cbn [bind] in E; [| |discriminate E].
      * destruct (args_sound _ _ (proj2 (Forall_forall _ _) (fun a _ => eval_sound a)) _ _ _ _ _ _ (eq_sym L) G) as [Ts _].
        destruct (op_evaluate (simple_of o) args) as [r|x|] eqn:V; cbn [wrap bind] in E; try discriminate.
        elim (evaluate_ok o args x Ts V).
      * inversion E; subst.
        assert (IH' : Forall (fun a => forall T pre ds e, g_eval a (option_map gt T) (Gst pre ds) = Err e -> complains a e) (s_args s)).
        { apply Forall_forall. intros a Ha. rewrite Forall_forall in IH, A. apply IH; auto. }
        destruct (args_complain o _ IH' _ _ _ _ _ (eq_sym L) G) as [j [a [e' (N & Ca & ->)]]].
        cbn [Nat.add]. eapply cp_arg; eauto.
    + inversion E; subst. unfold g_precheck in P. destruct B as (B1 & B2 & B3 & B4 & B5 & B6). rewrite B1, B2, B3, B4, B5, B6, O in P. cbn [negb] in P.
      destruct (lookup_op operations c) as [k|] eqn:Lk; [discriminate P|]. apply Err_inj in P. rewrite <- P. apply cp_opcode; [exact O|].
      apply lookup_none. exact Lk.
  - cbn in E. inversion E; subst. apply cp_call.
  - cbn [g_eval] in E. unfold g_variable in E. destruct (lookup_gst pre ds x) as [[t' [Lk _]]|[Lk _]]; rewrite Lk in E.
    + destruct T as [t|]; cbn [option_map] in E; [|discriminate]. destruct (identical _ _); [discriminate|].
      inversion E; subst. apply cp_var.
    + destruct T as [t|]; cbn [option_map] in E; [|inversion E; subst; apply cp_untyped].
      rewrite typesort_gt in E. discriminate.
  - destruct C as [[] _].
Qed.

(** Generate on a loaded rule. *)
Lemma generate_complains r e : plain_rule r -> simple_rule r -> rule_bad r = [] -> Generate r = Err e ->
  complains (r_match r) e \/ complains (r_result r) e.
Proof.
  intros [Pm Pr] (Cd & Bl & Hs) Hb E. unfold Generate, g_generate in E.
  rewrite Bytes_eq in E. cbn [node_bad node_text] in E. rewrite Hb in E. cbn [bind] in E.
  assert (Cm : clean_value (r_match r)).
  { split; [exact Pm|]. intros s S. apply Hs. apply occurs_sexpr_rule. apply in_app_iff. auto. }
  assert (Cr : clean_value (r_result r)).
  { split; [exact Pr|]. intros s S. apply Hs. apply occurs_sexpr_rule. apply in_app_iff. auto. }
  match type of E with context [g_eval (r_match r) None ?g] => remember g as g0 eqn:Eg end.
  assert (g0 = Gst (g_out g0) []) as Hg.
  { subst g0. unfold Gst, g_printf. cbn [g_out g_vars map List.concat rev]. rewrite app_nil_r. reflexivity. }
  rewrite Hg in E. clear Eg Hg. generalize (g_out g0) as pre, E. clear g0 E. intros pre E.
  destruct (g_eval (r_match r) None (Gst pre [])) as [[m g1]|x|] eqn:Em; cbn [bind] in E; [| |discriminate].
  - rewrite Cd, Bl in E.
    destruct (g_eval (r_result r) (Some (v_type m)) g1) as [[x g2]|x|] eqn:Ex; cbn [bind] in E; try discriminate.
    inversion E; subst. right.
    assert (exists t ds, v_type m = gt t /\ g1 = Gst pre ds) as [t [ds [Et ->]]].
    { destruct (r_match r) as [s|y|y|] eqn:Rm.
      - assert (Fa : Forall (fun a => forall t, sound_at a t) (s_args s)) by (apply Forall_forall; intros a _; apply eval_sound).
        destruct (sexp_sound s None Fa ltac:(auto) pre [] m g1 Em) as [o [ds' (_ & Ty & -> & _)]]. eauto.
      - discriminate.
      - cbn [g_eval] in Em. unfold g_variable in Em. destruct (lookup_gst pre [] y) as [[t [_ []]]|[Lk _]]. rewrite Lk in Em. discriminate.
      - discriminate. }
    rewrite Et in Ex. exact (eval_complains _ Cr (Some t) pre ds e Ex).
  - inversion E; subst. left. exact (eval_complains _ Cm None pre [] e Em).
Qed.
