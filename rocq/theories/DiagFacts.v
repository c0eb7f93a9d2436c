(** The messages of a failed expansion. *)
From Verif Require Import Text GoAst Ast Expand SpecExpand ExpandFacts SpecDiag.
From Coq Require Import Arith Lia Bool.
Open Scope res_scope.
Open Scope nat_scope.
Open Scope list_scope.

Definition big (l : list nat) : list nat := filter (fun k => 1 <? k) l.

Lemma big_app a b : big (a ++ b) = big a ++ big b.
Proof. apply filter_app. Qed.

(** The running count [n] over groups [gs]: no big group, or all big groups equal. *)
Definition Run (gs : list nat) (n : nat) : Prop :=
  (big gs = [] /\ n = 1) \/ (big gs <> [] /\ 2 <= n /\ forall k, In k (big gs) -> k = n).

Lemma Uni_Run gs n : Uni gs n -> Run gs n.
Proof.
  intros [[-> ->]|[Hne [Hall Hn]]]; [left; auto|right].
  assert (big gs = gs) as ->.
  { unfold big. clear Hne. induction gs as [|g gs IH]; [reflexivity|]. cbn [filter].
    rewrite (Hall g (or_introl eq_refl)). destruct (Nat.ltb_spec 1 n) as [_|?]; [|lia]. f_equal. apply IH.
    intros k Hk. apply Hall. right; exact Hk. }
  repeat split; auto.
Qed.

Lemma Run_app a b m n c : Run a m -> Run b n -> resolvecounts m n = Ok c -> Run (a ++ b) c.
Proof.
  intros Ha Hb Hr. apply resolvecounts_ok in Hr. unfold Run in *. rewrite big_app.
  destruct Ha as [[-> ->]|[Hna [Ha2 Haa]]]; destruct Hb as [[-> ->]|[Hnb [Hb2 Hba]]]; cbn [app].
  - left. split; [reflexivity|lia].
  - right. repeat split; try lia; [exact Hnb|]. intros k Hk. rewrite (Hba k Hk). lia.
  - right. rewrite app_nil_r. repeat split; try lia; [exact Hna|]. intros k Hk. rewrite (Haa k Hk). lia.
  - right. repeat split; try lia.
    + intros E. apply app_eq_nil in E. tauto.
    + intros k Hk. apply in_app_iff in Hk. destruct Hk as [Hk|Hk]; [rewrite (Haa k Hk)|rewrite (Hba k Hk)]; lia.
Qed.

Lemma Run_pos a n : Run a n -> 1 <= n.
Proof. intros [[_ ->]|[_ [H _]]]; lia. Qed.

Lemma last_all (l : list nat) n : l <> [] -> (forall k, In k l -> k = n) -> exists l', l = l' ++ [n].
Proof.
  intros Hne Hall. destruct (exists_last Hne) as [l' [x E]]. exists l'. rewrite E.
  rewrite (Hall x); [reflexivity|]. rewrite E. apply in_app_iff. right; left; reflexivity.
Qed.

Lemma Run_clash a b m n e : Run a m -> Run b n -> resolvecounts m n = Err e ->
  e = msg_clash m n /\ clashing (a ++ b) m n.
Proof.
  intros Ha Hb Hr. pose proof (Run_pos _ _ Ha). pose proof (Run_pos _ _ Hb).
  unfold resolvecounts in Hr. destruct (Nat.leb_spec m 0); [lia|]. destruct (Nat.leb_spec n 0); [lia|].
  cbn [orb] in Hr. destruct (Nat.ltb_spec 1 m) as [Hm|]; destruct (Nat.ltb_spec 1 n) as [Hn|];
    destruct (Nat.eqb_spec m n) as [|Hmn]; cbn [andb negb] in Hr;
    try (destruct (_ <? _); discriminate).
  injection Hr as <-. split; [reflexivity|]. split; [exact Hmn|].
  destruct Ha as [[_ ->]|[Hna [_ Haa]]]; [lia|]. destruct Hb as [[_ ->]|[Hnb [_ Hbb]]]; [lia|].
  destruct (last_all _ _ Hna Haa) as [a' Ea]. fold (big (a ++ b)). rewrite big_app, Ea.
  destruct (big b) as [|x b'] eqn:Eb; [congruence|]. rewrite (Hbb x (or_introl eq_refl)).
  exists a', b'. rewrite <- app_assoc. reflexivity.
Qed.

Lemma clashing_app_r a b m n : clashing a m n -> clashing (a ++ b) m n.
Proof.
  intros [H [x [y E]]]. split; [exact H|]. exists x, (y ++ big b). rewrite filter_app, E.
  rewrite <- app_assoc. reflexivity.
Qed.
Lemma clashing_app_l a b m n : clashing b m n -> clashing (a ++ b) m n.
Proof.
  intros [H [x [y E]]]. split; [exact H|]. exists (big a ++ x), y. rewrite filter_app, E.
  unfold big. rewrite <- app_assoc. reflexivity.
Qed.

(** Opcodes. *)
Lemma countparts_err ps : forall gs n e, Run gs n -> countparts n ps = Err e ->
  (In (PAlt []) ps /\ e = msg_counts) \/
  exists p q, clashing (gs ++ flat_map part_groups ps) p q /\ e = msg_clash p q.
Proof.
  induction ps as [|p ps IH]; intros gs n e Hn H; cbn [countparts] in H; [discriminate|].
  destruct p as [c|alts|].
  - destruct (IH _ _ _ Hn H) as [[Hi He]|Hc]; [left; split; [right; exact Hi|exact He]|right; exact Hc].
  - cbn [flat_map part_groups]. destruct (Nat.eq_dec (List.length alts) 0) as [H0|H0].
    { destruct alts; [|discriminate]. left. split; [left; reflexivity|]. unfold resolvecounts in H.
      cbn [List.length] in H. rewrite orb_true_r in H. cbn [bind] in H. injection H as <-. reflexivity. }
    assert (Hk : Run [List.length alts] (List.length alts)).
    { unfold Run, big. cbn [filter]. destruct (Nat.ltb_spec 1 (List.length alts)).
      - right. repeat split; [discriminate|lia|]. intros k [<-|[]]. reflexivity.
      - left. split; [reflexivity|lia]. }
    destruct (resolvecounts n (List.length alts)) as [c|e'|] eqn:Hr; cbn [bind] in H; try discriminate.
    + destruct (IH _ _ _ (Run_app _ _ _ _ _ Hn Hk Hr) H) as [[Hi He]|Hc]; [left; split; [right; exact Hi|exact He]|right].
      rewrite <- app_assoc in Hc. exact Hc.
    + injection H as <-. destruct (Run_clash _ _ _ _ _ Hn Hk Hr) as [-> Hc]. right.
      exists n, (List.length alts). split; [|reflexivity]. rewrite app_assoc. apply clashing_app_r. exact Hc.
  - destruct (IH _ _ _ Hn H) as [[Hi He]|Hc]; [left; split; [right; exact Hi|exact He]|right; exact Hc].
Qed.

Lemma mapM_err {A B} (f : A -> res B) l m : mapM f l = Err m -> exists a, In a l /\ f a = Err m.
Proof.
  induction l as [|a l IH]; cbn [mapM]; intros H; [discriminate|].
  destruct (f a) as [y| |m'] eqn:Hf; cbn [bind] in H; try discriminate.
  - destruct (mapM f l) as [ys| |m'] eqn:Hm; cbn [bind] in H; try discriminate. injection H as ->.
    destruct (IH eq_refl) as [b [Hb Hfb]]. exists b. split; [right; exact Hb|exact Hfb].
  - injection H as ->. exists a. split; [left; reflexivity|exact Hf].
Qed.

Lemma buildalt_err i ps : forall acc e, buildalt i acc ps = Err e -> In PNilPart ps /\ e = msg_nil.
Proof.
  induction ps as [|p ps IH]; intros acc e H; cbn [buildalt] in H; [discriminate|].
  destruct p as [c|alts|].
  - destruct (IH _ _ H). split; [right|]; assumption.
  - unfold index in H. destruct (nth_error alts i); cbn [bind] in H; [|discriminate].
    destruct (IH _ _ H). split; [right|]; assumption.
  - injection H as <-. split; [left; reflexivity|reflexivity].
Qed.

Lemma expandop_err o e : expandop o = Err e ->
  bad_op o e \/ exists p q, clashing (op_groups o) p q /\ e = msg_clash p q.
Proof.
  destruct o as [c|ps|]; cbn [expandop op_groups]; intros H; [discriminate| |].
  2: { injection H as <-. left. apply bad_nil. }
  unfold expandopcodeparts in H. destruct ps as [|p0 ps0] eqn:Eps.
  { injection H as <-. left. apply bad_empty. }
  rewrite <- Eps in *. assert (Hne : ps <> []) by (rewrite Eps; discriminate). clear Eps.
  assert (H1 : Run [] 1) by (left; auto).
  destruct (countparts 1 ps) as [n|e'|] eqn:Hc; cbn [bind] in H; try discriminate.
  - destruct (Nat.eqb_spec n 1) as [->|Hn1].
    + injection H as <-. left. apply bad_single; [exact Hne|]. intros alts Hi.
      destruct (countparts_ok ps 1 1 Hc (le_n 1)) as [_ [_ [Hal _]]]. destruct (Hal alts Hi); assumption.
    + destruct (mapM_err _ _ _ H) as [i [_ Hb]]. destruct (buildalt_err _ _ _ _ Hb) as [Hi ->].
      left. apply bad_part. exact Hi.
  - injection H as <-. destruct (countparts_err ps [] 1 e' H1 Hc) as [[Hi ->]|Hx].
    + left. apply bad_group. exact Hi.
    + right. exact Hx.
Qed.

Definition vexplains (v : value) (e : text) : Prop :=
  (exists o, In o (value_ops v) /\ bad_op o e) \/ (nil_in v /\ e = msg_nil) \/
  exists p q, clashing (value_groups v) p q /\ e = msg_clash p q.

Lemma expandvalue_run v l : expandvalue v = Ok l -> Run (value_groups v) (List.length l).
Proof.
  intros H. pose proof (expandvalue_proper _ _ H) as Hp.
  destruct (expandvalue_outcome v Hp) as [[n [Hn E]]|[m [n [_ [_ [_ E]]]]]]; rewrite E in H; [|discriminate].
  injection H as <-. rewrite map_length, seq_length. apply Uni_Run. exact Hn.
Qed.

Lemma expandop_run o l : expandop o = Ok l -> Run (op_groups o) (List.length l).
Proof.
  intros H. destruct (expandop_proper _ _ H) as [Hp _].
  destruct (expandop_outcome o Hp) as [[n [Hn E]]|[m [n [_ [_ [_ E]]]]]]; rewrite E in H; [|discriminate].
  injection H as <-. rewrite map_length, seq_length. apply Uni_Run. exact Hn.
Qed.

Lemma expandargs_err args :
  Forall (fun a => forall e, expandvalue a = Err e -> vexplains a e) args ->
  forall gs n e, Run gs n -> expandargs (fun a => expandvalue a) n args = Err e ->
  (exists a o, In a args /\ In o (value_ops a) /\ bad_op o e) \/
  (exists a, In a args /\ nil_in a /\ e = msg_nil) \/
  exists p q, clashing (gs ++ flat_map value_groups args) p q /\ e = msg_clash p q.
Proof.
  induction 1 as [|a args Ha Hargs IH]; intros gs n e Hn H; cbn [expandargs] in H; [discriminate|].
  cbn [flat_map]. destruct (expandvalue a) as [ea|e'|] eqn:Hea; cbn [bind] in H; try discriminate.
  - pose proof (expandvalue_run _ _ Hea) as Hk.
    destruct (resolvecounts n (List.length ea)) as [b|e'|] eqn:Hr; cbn [bind] in H; try discriminate.
    + destruct (expandargs (fun a => expandvalue a) b args) as [[c ex]|e'|] eqn:He; cbn [bind] in H; try discriminate.
      injection H as ->. destruct (IH _ _ _ (Run_app _ _ _ _ _ Hn Hk Hr) He) as [[a' [o [Hi [Ho Hb]]]]|[[a' [Hi Hnil]]|Hc]].
      * left. exists a', o. split; [right; exact Hi|auto].
      * right; left. exists a'. split; [right; exact Hi|exact Hnil].
      * right; right. rewrite <- app_assoc in Hc. exact Hc.
    + injection H as ->. destruct (Run_clash _ _ _ _ _ Hn Hk Hr) as [-> Hc]. right; right.
      exists n, (List.length ea). split; [|reflexivity]. rewrite app_assoc. apply clashing_app_r. exact Hc.
  - injection H as ->. destruct (Ha _ eq_refl) as [[o [Ho Hb]]|[[Hnil E]|[p [q [Hc E]]]]].
    + left. exists a, o. split; [left; reflexivity|auto].
    + right; left. exists a. split; [left; reflexivity|auto].
    + right; right. exists p, q. split; [|exact E]. apply clashing_app_l, clashing_app_r. exact Hc.
Qed.

Lemma buildsexpr_no_err s os ex i e : buildsexpr s os ex i <> Err e.
Proof.
  unfold buildsexpr, index at 1. destruct (nth_error _ _); cbn [bind]; [|discriminate].
  destruct (mapM _ ex) as [|e'|] eqn:Hm; cbn [bind]; try discriminate.
  destruct (mapM_err _ _ _ Hm) as [l0 [_ Hl]]. unfold index in Hl. destruct (nth_error _ _); discriminate.
Qed.

Lemma expandvalue_err v : forall e, expandvalue v = Err e -> vexplains v e.
Proof.
  revert v. apply (value_ind' (fun v => forall e, expandvalue v = Err e -> vexplains v e)).
  - intros s IH e H. cbn [expandvalue] in H.
    destruct (expandop (s_op s)) as [os|e'|] eqn:Ho; cbn [bind] in H; try discriminate.
    + pose proof (expandop_run _ _ Ho) as Hk.
      destruct (expandargs (fun a => expandvalue a) (List.length os) (s_args s)) as [[c ex]|e'|] eqn:Ha;
        cbn [bind] in H; try discriminate.
      * destruct (c =? 1); [discriminate|]. destruct (mapM_err _ _ _ H) as [i [_ Hb]].
        elim (buildsexpr_no_err _ _ _ _ _ Hb).
      * injection H as ->. destruct (expandargs_err _ IH _ _ _ Hk Ha) as [[a [o [Hi [Hin Hb]]]]|[[a [Hi [Hn E]]]|Hc]].
        -- left. exists o. split; [|exact Hb]. cbn [value_ops]. right. apply in_flat_map. eauto.
        -- right; left. split; [|exact E]. eapply ni_arg; eassumption.
        -- right; right. exact Hc.
    + injection H as ->. destruct (expandop_err _ _ Ho) as [Hb|[p [q [Hc E]]]].
      * left. exists (s_op s). split; [left; reflexivity|exact Hb].
      * right; right. exists p, q. split; [|exact E]. cbn [value_groups]. apply clashing_app_r. exact Hc.
  - discriminate.
  - discriminate.
  - intros e H. injection H as <-. right; left. split; [constructor|reflexivity].
Qed.

Lemma expandrule_err r e : expandrule r = Err e -> explains r e.
Proof.
  unfold expandrule. intros H.
  destruct (expandvalue (r_match r)) as [ms|e'|] eqn:Hm; cbn [bind] in H; try discriminate.
  - destruct (expandvalue (r_result r)) as [xs|e'|] eqn:Hx; cbn [bind] in H; try discriminate.
    + destruct (resolvecounts (List.length ms) (List.length xs)) as [c|e'|] eqn:Hr; cbn [bind] in H; try discriminate.
      * destruct (c =? 1); [discriminate|]. destruct (mapM_err _ _ _ H) as [i [_ Hb]].
        unfold index in Hb. destruct (nth_error _ _); cbn [bind] in Hb; [|discriminate].
        destruct (nth_error _ _); discriminate.
      * injection H as ->.
        destruct (Run_clash _ _ _ _ _ (expandvalue_run _ _ Hm) (expandvalue_run _ _ Hx) Hr) as [E Hc].
        eapply ex_clash; eassumption.
    + injection H as ->. destruct (expandvalue_err _ _ Hx) as [[o [Ho Hb]]|[[Hn E]|[p [q [Hc E]]]]].
      * eapply ex_op; [apply in_app_iff; right; exact Ho|exact Hb].
      * apply ex_nil; auto.
      * eapply ex_clash; [apply clashing_app_l; exact Hc|exact E].
  - injection H as ->. destruct (expandvalue_err _ _ Hm) as [[o [Ho Hb]]|[[Hn E]|[p [q [Hc E]]]]].
    + eapply ex_op; [apply in_app_iff; left; exact Ho|exact Hb].
    + apply ex_nil; auto.
    + eapply ex_clash; [apply clashing_app_r; exact Hc|exact E].
Qed.

Lemma expandrules_err rs e : expandrules rs = Err e ->
  exists pre r post, rs = pre ++ r :: post /\
    Forall (fun r => proper_rule r /\ uniform (rule_groups r)) pre /\ explains r e.
Proof.
  induction rs as [|r rs IH]; intros H; cbn [expandrules] in H; [discriminate|].
  destruct (expandrule r) as [g|e'|] eqn:Hr; cbn [bind] in H; try discriminate.
  - destruct (expandrules rs) as [es|e'|] eqn:Hes; cbn [bind] in H; try discriminate. injection H as ->.
    destruct (IH eq_refl) as [pre [r' [post [-> [Hpre Hx]]]]]. exists (r :: pre), r', post.
    split; [reflexivity|]. split; [|exact Hx]. constructor; [|exact Hpre].
    apply expandrule_iff in Hr. tauto.
  - injection H as ->. exists [], r, rs. split; [reflexivity|]. split; [constructor|]. apply expandrule_err. exact Hr.
Qed.

Lemma expand_diag f f' e : ExpandAlternates f = Ok (f', Some e) ->
  exists pre r post, f_rules f = pre ++ r :: post /\
    Forall (fun r => proper_rule r /\ uniform (rule_groups r)) pre /\ explains r e.
Proof.
  unfold ExpandAlternates. destruct (expandrules (f_rules f)) as [|e'|] eqn:E; try discriminate.
  intros H. injection H as <- ->. apply expandrules_err. exact E.
Qed.

(** Proper rules have no fault but a clash. *)
Lemma proper_value_ops v : proper_value v -> forall o, In o (value_ops v) -> proper_op o.
Proof.
  revert v. apply (value_ind' (fun v => proper_value v -> forall o, In o (value_ops v) -> proper_op o)); try (intros; contradiction).
  intros s IH Hp o Ho. apply proper_sexp in Hp. destruct Hp as [Hop Hargs]. cbn [value_ops] in Ho.
  destruct Ho as [<-|Ho]; [exact Hop|]. apply in_flat_map in Ho. destruct Ho as [a [Ha Ho]].
  rewrite Forall_forall in IH, Hargs. exact (IH a Ha (Hargs a Ha) o Ho).
Qed.

Lemma proper_not_nil v : proper_value v -> ~ nil_in v.
Proof.
  intros Hp Hn. induction Hn as [|s0 a0 Ha Hn IH]; [exact Hp|]. apply proper_sexp in Hp. destruct Hp as [_ Hp].
  rewrite Forall_forall in Hp. exact (IH (Hp a0 Ha)).
Qed.

Lemma proper_not_bad o e : proper_op o -> ~ bad_op o e.
Proof.
  intros Hp Hb. destruct Hb as [| |ps Hi|ps Hi|ps Hne Hall]; cbn in Hp.
  - exact Hp.
  - destruct Hp as [_ [alts []]].
  - destruct Hp as [Hf _]. rewrite Forall_forall in Hf. exact (Hf _ Hi).
  - destruct Hp as [Hf _]. rewrite Forall_forall in Hf. specialize (Hf _ Hi). cbn in Hf. lia.
  - destruct Hp as [Hf [alts Ha]]. rewrite Forall_forall in Hf. specialize (Hf _ Ha). cbn in Hf.
    rewrite (Hall _ Ha) in Hf. lia.
Qed.

Lemma proper_big r : proper_rule r -> filter (fun k => 1 <? k) (rule_groups r) = rule_groups r.
Proof.
  intros [Hm Hr]. assert (H : forall v, proper_value v -> Forall (fun k => 2 <= k) (value_groups v)).
  { apply (value_ind' (fun v => proper_value v -> Forall (fun k => 2 <= k) (value_groups v))); try (intros; constructor).
    intros s IH Hp. apply proper_sexp in Hp. destruct Hp as [Hop Hargs]. cbn [value_groups]. apply Forall_app. split.
    - destruct (s_op s) as [c|ps|]; [constructor| |constructor]. cbn in Hop |- *. destruct Hop as [Hop _].
      apply Forall_forall. intros k Hk. apply in_flat_map in Hk. destruct Hk as [p [Hp Hk]].
      rewrite Forall_forall in Hop. specialize (Hop p Hp). destruct p; cbn in Hk; try contradiction; destruct Hk as [<-|[]]; exact Hop.
    - apply Forall_forall. intros k Hk. apply in_flat_map in Hk. destruct Hk as [a [Ha Hk]].
      rewrite Forall_forall in IH, Hargs. specialize (IH a Ha (Hargs a Ha)). rewrite Forall_forall in IH. auto. }
  unfold rule_groups. pose proof (H _ Hm) as H1. pose proof (H _ Hr) as H2.
  assert (H3 := proj2 (Forall_app _ _ _) (conj H1 H2)). clear -H3. induction H3 as [|k l Hk Hl IH]; [reflexivity|].
  cbn [filter]. destruct (Nat.ltb_spec 1 k); [f_equal; exact IH|lia].
Qed.

Lemma proper_explains r e : proper_rule r -> explains r e ->
  exists a m n c, rule_groups r = a ++ m :: n :: c /\ m <> n /\ e = msg_clash m n.
Proof.
  intros Hp. pose proof (proper_big r Hp) as Hb. destruct Hp as [Hm Hr].
  intros [o Ho Hbad|[Hn|Hn] _|m n [Hne [a [c E]]] He].
  - exfalso. unfold rule_ops in Ho. apply in_app_iff in Ho.
    destruct Ho as [Ho|Ho]; (eapply proper_not_bad; [|exact Hbad]);
      [exact (proper_value_ops _ Hm _ Ho)|exact (proper_value_ops _ Hr _ Ho)].
  - elim (proper_not_nil _ Hm Hn).
  - elim (proper_not_nil _ Hr Hn).
  - exists a, m, n, c. rewrite <- E, Hb. auto.
Qed.

Lemma proper_diag f f' e : Forall proper_rule (f_rules f) -> ExpandAlternates f = Ok (f', Some e) ->
  exists pre r post before m n after, f_rules f = pre ++ r :: post /\
    Forall (fun r => uniform (rule_groups r)) pre /\
    rule_groups r = before ++ m :: n :: after /\ m <> n /\ e = msg_clash m n.
Proof.
  intros Hp H. destruct (expand_diag _ _ _ H) as [pre [r [post [E [Hpre Hx]]]]].
  assert (Hr : proper_rule r).
  { rewrite Forall_forall in Hp. apply Hp. rewrite E. apply in_app_iff. right; left; reflexivity. }
  destruct (proper_explains _ _ Hr Hx) as [a [m [n [c [Eg [Hne He]]]]]].
  exists pre, r, post, a, m, n, c. repeat split; auto. eapply Forall_impl; [|exact Hpre]. intros ? [_ Hu]. exact Hu.
Qed.

(** The panic's message. *)
Lemma buildalt_panic_msg i ps : forall acc m, buildalt i acc ps = Panic m ->
  exists alts, In (PAlt alts) ps /\ List.length alts <= i /\
    m = str "runtime error: index out of range [" ++ dec i ++ str "] with length " ++ dec (List.length alts).
Proof.
  induction ps as [|p ps IH]; intros acc m H; cbn [buildalt] in H; [discriminate|].
  destruct p as [c|alts|]; [| |discriminate].
  - destruct (IH _ _ H) as [al [Hin Hl]]. exists al. split; [right; exact Hin|exact Hl].
  - unfold index in H. destruct (nth_error alts i) as [t|] eqn:Hn; cbn [bind] in H.
    + destruct (IH _ _ H) as [al [Hin Hl]]. exists al. split; [right; exact Hin|exact Hl].
    + injection H as <-. exists alts. split; [left; reflexivity|]. split; [apply nth_error_None; exact Hn|reflexivity].
Qed.

Lemma buildalt_ok_nth i ps : forall acc t, buildalt i acc ps = Ok t ->
  forall alts, In (PAlt alts) ps -> i < List.length alts.
Proof.
  induction ps as [|p ps IH]; intros acc t H alts Hin; cbn [buildalt] in H; [destruct Hin|].
  destruct p as [c|al|]; [| |discriminate].
  - destruct Hin as [E|Hin]; [discriminate|eapply IH; eassumption].
  - unfold index in H. destruct (nth_error al i) as [x|] eqn:Hn; cbn [bind] in H; [|discriminate].
    destruct Hin as [E|Hin]; [injection E as <-; apply nth_error_Some; congruence|eapply IH; eassumption].
Qed.

Lemma expandop_panic_msg o m : expandop o = Panic m -> m = msg_panic.
Proof.
  destruct o as [c|ps|]; cbn [expandop]; try discriminate. unfold expandopcodeparts.
  destruct ps as [|p0 ps0]; [discriminate|]. set (ps := p0 :: ps0). intros H.
  destruct (countparts 1 ps) as [n| |m'] eqn:Hc; cbn [bind] in H; [|discriminate|elim (countparts_no_panic ps 1 m' Hc)].
  destruct (Nat.eqb_spec n 1) as [|Hn1]; [discriminate|].
  destruct (countparts_ok ps 1 n Hc (le_n 1)) as [Hn [_ [Hal _]]].
  assert (Hmsg : forall i m, i < n -> buildalt i [] ps = Panic m ->
    exists alts, In (PAlt alts) ps /\ List.length alts = 1 /\
      m = str "runtime error: index out of range [" ++ dec i ++ str "] with length 1").
  { intros i m0 Hi Hb. apply buildalt_panic_msg in Hb. destruct Hb as [alts [Hin [Hl ->]]].
    destruct (Hal alts Hin) as [H1|H1]; [|lia]. exists alts. rewrite H1. auto. }
  destruct n as [|[|n]]; try lia. cbn [seq mapM] in H.
  destruct (buildalt 0 [] ps) as [x0| |m'] eqn:H0; cbn [bind] in H; try discriminate.
  2: { destruct (buildalt_panic 0 ps [] m' H0) as [alts [Hin Hl]]. destruct (Hal alts Hin); lia. }
  destruct (buildalt 1 [] ps) as [x1| |m'] eqn:H1; cbn [bind] in H; try discriminate.
  - destruct (mapM (fun i => buildalt i [] ps) (seq 2 n)) as [|e|m'] eqn:H2; cbn [bind] in H; try discriminate.
    destruct (mapM_panic _ _ _ H2) as [i [Hi Hb]]. apply in_seq in Hi.
    destruct (Hmsg i m' ltac:(lia) Hb) as [alts [Hin [Hl _]]].
    pose proof (buildalt_ok_nth _ _ _ _ H1 alts Hin). lia.
  - injection H as <-. destruct (Hmsg 1 m' ltac:(lia) H1) as [alts [_ [_ ->]]]. reflexivity.
Qed.

Lemma expandargs_panic_msg args :
  Forall (fun a => forall m, expandvalue a = Panic m -> m = msg_panic) args ->
  forall n m, expandargs (fun a => expandvalue a) n args = Panic m -> m = msg_panic.
Proof.
  induction 1 as [|a args Ha Hargs IH]; intros n m H; cbn [expandargs] in H; [discriminate|].
  destruct (expandvalue a) as [ea| |m'] eqn:Hea; cbn [bind] in H; try discriminate.
  - pose proof (resolvecounts_no_panic n (List.length ea)) as Hnp.
    destruct (resolvecounts n (List.length ea)) as [b| |m']; cbn [bind] in H; [|discriminate|elim (Hnp m' eq_refl)].
    destruct (expandargs (fun a => expandvalue a) b args) as [[c ex]| |m'] eqn:He; cbn [bind] in H; try discriminate.
    injection H as <-. exact (IH _ _ He).
  - injection H as <-. exact (Ha _ eq_refl).
Qed.

Lemma expandvalue_panic_msg v : forall m, expandvalue v = Panic m -> m = msg_panic.
Proof.
  revert v. apply (value_ind' (fun v => forall m, expandvalue v = Panic m -> m = msg_panic)); try discriminate.
  intros s IH m H. cbn [expandvalue] in H.
  destruct (expandop (s_op s)) as [os| |m'] eqn:Ho; cbn [bind] in H; try discriminate.
  2: { injection H as <-. eapply expandop_panic_msg; exact Ho. }
  destruct (expandargs (fun a => expandvalue a) (List.length os) (s_args s)) as [[c ex]| |m'] eqn:Ha;
    cbn [bind] in H; try discriminate.
  2: { injection H as <-. eapply expandargs_panic_msg; eassumption. }
  destruct (Nat.eqb_spec c 1); [discriminate|]. exfalso.
  destruct (expandop_proper _ _ Ho) as [_ Hlen].
  destruct (expandargs_ok _ _ _ _ Ha Hlen) as [Hc [Hoc Hex]].
  destruct (mapM_panic _ _ _ H) as [i [Hi Hb]]. apply in_seq in Hi. unfold buildsexpr in Hb.
  destruct (index_ok os (idx i (List.length os))) as [t Ht].
  { apply idx_lt with (n := c); [lia|exact Hoc]. }
  rewrite Ht in Hb. cbn [bind] in Hb.
  destruct (mapM (fun alts : list value => index alts (idx i (List.length alts))) ex) as [| |m'] eqn:Hm;
    cbn [bind] in Hb; try discriminate.
  destruct (mapM_panic _ _ _ Hm) as [l0 [Hl Hp]]. rewrite Forall_forall in Hex.
  destruct (index_ok l0 (idx i (List.length l0))) as [x Hx].
  { apply idx_lt with (n := c); [lia|auto]. }
  congruence.
Qed.

Lemma expandrule_panic_msg r m : expandrule r = Panic m -> m = msg_panic.
Proof.
  unfold expandrule. intros H.
  destruct (expandvalue (r_match r)) as [ms| |m'] eqn:Hm; cbn [bind] in H; try discriminate.
  2: { injection H as <-. exact (expandvalue_panic_msg _ _ Hm). }
  destruct (expandvalue (r_result r)) as [xs| |m'] eqn:Hx; cbn [bind] in H; try discriminate.
  2: { injection H as <-. exact (expandvalue_panic_msg _ _ Hx). }
  pose proof (resolvecounts_no_panic (List.length ms) (List.length xs)) as Hnp.
  destruct (resolvecounts (List.length ms) (List.length xs)) as [c| |m'] eqn:Hr; cbn [bind] in H; [|discriminate|elim (Hnp m' eq_refl)].
  destruct (Nat.eqb_spec c 1); [discriminate|]. exfalso. apply resolvecounts_ok in Hr.
  destruct (mapM_panic _ _ _ H) as [i [Hi Hb]]. apply in_seq in Hi.
  destruct (index_ok ms (idx i (List.length ms))) as [y Hy]; [apply idx_lt with (n := c); lia|].
  rewrite Hy in Hb. cbn [bind] in Hb.
  destruct (index_ok xs (idx i (List.length xs))) as [z Hz]; [apply idx_lt with (n := c); lia|].
  rewrite Hz in Hb. discriminate.
Qed.

Lemma expand_panic_msg f m : ExpandAlternates f = Panic m -> m = msg_panic.
Proof.
  unfold ExpandAlternates. destruct (expandrules (f_rules f)) as [| |m'] eqn:E; try discriminate.
  intros H. injection H as <-. revert m' E. induction (f_rules f) as [|r rs IH]; intros m' E; cbn [expandrules] in E; [discriminate|].
  destruct (expandrule r) as [g| |m''] eqn:Hr; cbn [bind] in E; try discriminate.
  - destruct (expandrules rs) as [| |m''] eqn:Hrs; cbn [bind] in E; try discriminate. injection E as <-. auto.
  - injection E as <-. eapply expandrule_panic_msg; exact Hr.
Qed.
