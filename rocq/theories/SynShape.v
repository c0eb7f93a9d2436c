(** Consequences of the written forms: shape of the trees, extension of sources,
    and the forms of printed trees. *)
From Verif Require Import Text GoAst Ast Utf8 GoExpr Peg Grammar Parse SpecPrint SpecUtf8 SpecSyntax SpecTrees PegPoints PegSem PrintFacts
  SynLex SynWords SynExpr SynValue SynRule SynFile ParseFacts.
From Verif Require Import SynTrim.
From Coq Require Import NArith Arith Bool Lia.

(** * UTF-8 *)
Lemma utf8_app a b : utf8 a -> utf8 b -> utf8 (a ++ b).
Proof. induction 1 as [|k t K U IH]; intros B; [exact B|]. rewrite <- app_assoc. constructor; auto. Qed.
Lemma utf8_char_first k : utf8_char k -> exists c t, k = c :: t /\ ((byte_val c < 128)%N /\ t = [] \/ (128 <= byte_val c)%N /\ Forall (fun x => (128 <= byte_val x)%N) t).
Proof.
  intros H. inversion H; subst; unfold tail_byte, byte_in in *; eexists _, _; (split; [reflexivity|]);
  first [left; split; [lia|reflexivity] | right; split; [lia|]; repeat constructor; lia].
Qed.
(** Cutting before an ASCII byte. *)
Lemma utf8_cut c b : (byte_val c < 128)%N -> forall a, utf8 (a ++ c :: b) -> utf8 a /\ utf8 (c :: b).
Proof.
  intros A a. remember (a ++ c :: b) as t eqn:E. intros U. revert a E. induction U as [|k t K U IH]; intros a E; [destruct a; discriminate|].
  destruct a as [|x a].
  - split; [constructor|]. cbn in E. rewrite <- E. constructor; assumption.
  - assert (exists a', x :: a = k ++ a') as [a' Ea].
    { destruct (utf8_char_first k K) as (d & k' & -> & F). cbn in E. inversion E as [[Ed Et]]. subst d.
      destruct F as [[_ ->]|[_ F]]; [exists a; reflexivity|].
      assert (L : (List.length k' <= List.length a)%nat).
      { destruct (le_lt_dec (List.length k') (List.length a)) as [L|L]; [exact L|exfalso].
        assert (I : nth (List.length a) k' sp = c).
        { rewrite <- (app_nth1 k' t sp L), Et. rewrite app_nth2, Nat.sub_diag; [reflexivity|lia]. }
        rewrite Forall_forall in F. specialize (F c). rewrite <- I in F at 1. specialize (F (nth_In k' sp L)). lia. }
      exists (skipn (List.length k') a). cbn. f_equal. rewrite <- (firstn_skipn (List.length k') a) at 1. f_equal.
      apply (f_equal (firstn (List.length k'))) in Et. rewrite !firstn_app, Nat.sub_diag, firstn_all in Et.
      replace (List.length k' - List.length a)%nat with 0%nat in Et by lia. cbn in Et. rewrite !app_nil_r in Et. symmetry. exact Et. }
    rewrite Ea, <- app_assoc in E. apply app_inv_head in E. destruct (IH a' E) as [U1 U2]. rewrite Ea. split; [constructor; assumption|exact U2].
Qed.
Lemma utf8_ascii t : Forall (fun c => (byte_val c < 128)%N) t -> utf8 t.
Proof. induction 1 as [|c t H _ IH]; [constructor|]. apply (utf8_cons [c] t); [constructor; unfold byte_in; lia|exact IH]. Qed.
Lemma utf8_tail c b : (byte_val c < 128)%N -> utf8 (c :: b) -> utf8 b.
Proof.
  intros A U. inversion U as [|k t K U' E]. destruct (utf8_char_first k K) as (d & k' & -> & F). cbn in E. inversion E; subst.
  destruct F as [[_ ->]|[F _]]; [exact U'|lia].
Qed.
(** A text that occurs in well-formed UTF-8. *)
Definition within (k : text) : Prop := exists a b, utf8 (a ++ k ++ b).
Lemma within_sub a k b : within (a ++ k ++ b) -> within k.
Proof. intros (x & y & U). exists (x ++ a), (b ++ y). rewrite <- !app_assoc in *. exact U. Qed.
Lemma within_left k b : within (k ++ b) -> within k.
Proof. apply (within_sub [] k b). Qed.
Lemma within_right a k : within (a ++ k) -> within k.
Proof. intros W. apply (within_sub a k []). rewrite app_nil_r. exact W. Qed.
Lemma within_between c k d : (byte_val c < 128)%N -> (byte_val d < 128)%N -> within ([c] ++ k ++ [d]) -> utf8 k.
Proof.
  intros C D (a & b & U). rewrite <- !app_assoc in U. apply (utf8_cut c _ C a) in U. destruct U as [_ U]. apply utf8_tail in U; [|exact C].
  apply (utf8_cut d b D k). exact U.
Qed.

(** * Trees *)
Lemma unplaced_bare e : unplaced (bare e).
Proof.
  induction e using gexpr_ind'; cbn [bare unplaced]; auto.
  split; [assumption|]. split; [reflexivity|]. split; [|auto].
  match goal with F : Forall _ _ |- _ => induction F; cbn; auto end.
Qed.
Lemma supported_bare e : supported e -> supported (bare e).
Proof.
  induction e using gexpr_ind'; cbn [bare supported]; auto.
  - tauto.
  - intros [A B]. split; [auto|]. revert B. match goal with F : Forall _ _ |- _ => induction F as [|x' l' Hx _ IH]; cbn; [auto|] end. intros [X Y]. auto.
Qed.
Lemma fold_and_Forall {X} (P : X -> Prop) l : fold_right (fun a Q => P a /\ Q) True l <-> Forall P l.
Proof.
  induction l as [|x l IH]; cbn; [split; auto|]. rewrite IH. split; [intros [A B]; constructor; assumption|intros H; inversion H; auto].
Qed.

Section Shape.
  Variable gp : text -> res gexpr.

  (** ** What a source says about its trees *)
  (** Where an embedded expression comes from. *)
  Definition origin (data : text) (e : gexpr) : Prop :=
    exists t, (exists a b, data = a ++ t ++ b) /\ (reads gp t e \/ reads_cond gp t e).
  Lemma reads_origin k e : reads gp k e -> origin k e.
  Proof. intros R. exists k. split; [exists [], []; rewrite app_nil_r; reflexivity|]. auto. Qed.
  Lemma origin_sub a k b e : origin k e -> origin (a ++ k ++ b) e.
  Proof. intros (t & (x & y & ->) & R). exists t. split; [|exact R]. exists (a ++ x), (y ++ b). rewrite <- !app_assoc. reflexivity. Qed.
  Lemma origin_left k b e : origin k e -> origin (k ++ b) e.
  Proof. intros H. apply (origin_sub [] k b e H). Qed.
  Lemma origin_right a k e : origin k e -> origin (a ++ k) e.
  Proof. intros H. rewrite <- (app_nil_r k). apply origin_sub. exact H. Qed.

  Definition op_exprs (o : operand) : list gexpr :=
    match o with OType _ => [] | OAuxInt e | OAux e => [e] | OArg v => value_exprs v end.
  Definition lex_operand (o : operand) : Prop :=
    match o with OType t => ~ In ">"%char t /\ utf8 t | OArg v => lex_value v | _ => True end.

  Lemma last_in {X} (l : list X) d : last l d = d \/ In (last l d) l.
  Proof. induction l as [|x l IH]; [auto|]. destruct l; [right; left; reflexivity|]. change (last (x :: x0 :: l) d) with (last (x0 :: l) d). destruct IH as [IH|IH]; [auto|right; right; exact IH]. Qed.
  Lemma assemble_exprs b o ops el tr e : In e (value_exprs (SExp (assemble b o ops el tr))) -> In e (flat_map op_exprs ops).
  Proof.
    cbn [value_exprs assemble s_auxint s_aux s_args]. rewrite !in_app_iff. intros [H|[H|H]].
    - destruct (last_in (map Some (auxints_of ops)) None) as [E|E]; [rewrite E in H; destruct H|].
      destruct (last _ _) as [e'|]; [|destruct H]. destruct H as [<-|[]]. apply in_map_iff in E. destruct E as (x & E & I). inversion E; subst.
      unfold auxints_of in I. apply in_flat_map in I. destruct I as (p & I & Ip). apply in_flat_map. exists p. split; [exact I|]. destruct p; cbn in *; tauto.
    - destruct (last_in (map Some (auxs_of ops)) None) as [E|E]; [rewrite E in H; destruct H|].
      destruct (last _ _) as [e'|]; [|destruct H]. destruct H as [<-|[]]. apply in_map_iff in E. destruct E as (x & E & I). inversion E; subst.
      unfold auxs_of in I. apply in_flat_map in I. destruct I as (p & I & Ip). apply in_flat_map. exists p. split; [exact I|]. destruct p; cbn in *; tauto.
    - apply in_flat_map in H. destruct H as (v & Iv & He). unfold args_of in Iv. apply in_flat_map in Iv. destruct Iv as (p & I & Ip).
      apply in_flat_map. exists p. split; [exact I|]. destruct p; cbn in *; try tauto. destruct Ip as [<-|[]]. exact He.
  Qed.
  Lemma expr_shape t v : expr_form gp t v -> lex_value v /\ Forall (origin t) (value_exprs v).
  Proof.
    intros [t' e C R|x Hx|]; cbn [lex_value value_exprs].
    - split; [exact I|]. constructor; [apply reads_origin; exact R|constructor].
    - split; [auto|constructor].
    - split; [auto|constructor].
  Qed.
  Lemma values_shape :
    (forall t v, value_form gp t v -> within t -> lex_value v /\ Forall (origin t) (value_exprs v)) /\
    (forall t ops, operands_form gp t ops -> within t -> Forall lex_operand ops /\ Forall (origin t) (flat_map op_exprs ops)) /\
    (forall t x, operand_form gp t x -> within t -> lex_operand x /\ Forall (origin t) (op_exprs x)).
  Proof.
    apply value_forms_ind.
    - intros t v E _. apply expr_shape. exact E.
    - intros b w o opst ops ell el trl tr w' Hb W Ho Fo IH Fe Ft W' Wi.
      destruct IH as [L O].
      { apply within_right in Wi. apply within_right in Wi. apply within_right in Wi. apply within_right in Wi. apply within_left in Wi. exact Wi. }
      split.
      + cbn [lex_value assemble s_binding s_op s_type s_args]. split; [exact Hb|]. split; [exact Ho|].
        rewrite Forall_forall in L. split.
        * destruct (last_in (types_of ops) []) as [E|E]; [rewrite E; split; [intros []|constructor]|].
          unfold types_of in E at 2. apply in_flat_map in E. destruct E as (p & I & Ip). specialize (L p I). destruct p; cbn in Ip; try tauto.
          destruct Ip as [<-|[]]. exact L.
        * apply fold_and_Forall. apply Forall_forall. intros v I. unfold args_of in I. apply in_flat_map in I. destruct I as (p & I & Ip).
          specialize (L p I). destruct p; cbn in Ip; try tauto. destruct Ip as [<-|[]]. exact L.
      + apply Forall_forall. intros e He. apply assemble_exprs in He. rewrite Forall_forall in O. specialize (O e He).
        do 4 apply origin_right. apply origin_left. exact O.
    - intros _. split; constructor.
    - intros w t x rest xs W Fx IHx Fr IHr Wi. apply within_right in Wi. destruct (IHx (within_left _ _ Wi)) as [L1 O1].
      destruct (IHr (within_right _ _ Wi)) as [L2 O2]. split; [constructor; assumption|]. cbn [flat_map]. apply Forall_app. split.
      + eapply Forall_impl; [|exact O1]. intros e He. apply origin_right. apply origin_left. exact He.
      + eapply Forall_impl; [|exact O2]. intros e He. apply origin_right. apply origin_right. exact He.
    - intros t Ne N Wi. split; [|constructor]. split; [exact N|]. apply (within_between "<"%char t ">"%char); [reflexivity..|exact Wi].
    - intros t e Ne N R Wi. split; [exact I|]. constructor; [|constructor]. apply origin_right. apply origin_left. apply reads_origin. exact R.
    - intros t e Ne N R Wi. split; [exact I|]. constructor; [|constructor]. apply origin_right. apply origin_left. apply reads_origin. exact R.
    - intros t v V IH Wi. apply IH. exact Wi.
  Qed.
  Lemma cond_shape after ct c : cond_form gp after ct c -> Forall (origin ct) (given c).
  Proof.
    intros [|w w' t e b after' _ _ _ _ _ _ _ R]; cbn [given]; constructor; [|constructor].
    do 3 apply origin_right. exists t. split; [exists [], []; rewrite app_nil_r; reflexivity|auto].
  Qed.
  Lemma rule_shape after t r : rule_form gp after t r -> within (t ++ after) -> lex_rule r /\ Forall (origin t) (rule_exprs r).
  Proof.
    intros [m vm ct c w1 w2 bt b w3 res vr Vm C W1 W2 B W3 Vr _] Wi. rewrite <- !app_assoc in Wi.
    destruct (proj1 values_shape m vm Vm (within_left _ _ Wi)) as [L1 O1].
    do 5 apply within_right in Wi. pose proof Wi as Wb. do 2 apply within_right in Wi.
    destruct (proj1 values_shape res vr Vr (within_left _ _ Wi)) as [L2 O2]. split.
    - split; [exact L1|]. split; [|exact L2]. cbn [r_block]. inversion B as [|b' d after' Ne F E St]; subst; [split; constructor|].
      split; [exact F|]. rewrite <- app_assoc, E in Wb. apply (within_between "@"%char b d); [reflexivity|destruct St as [-> | [-> | ->]]; reflexivity|].
      apply (within_left _ after'). rewrite <- !app_assoc. exact Wb.
    - unfold rule_exprs. cbn [r_match r_cond r_result]. rewrite !Forall_app. split; [|split].
      + eapply Forall_impl; [|exact O1]. intros e He. apply origin_left. exact He.
      + eapply Forall_impl; [|exact (cond_shape _ _ _ C)]. intros e He. apply origin_right. apply origin_left. exact He.
      + eapply Forall_impl; [|exact O2]. intros e He. do 7 apply origin_right. exact He.
  Qed.
  Lemma source_shape data rs : source_form gp data rs -> within data -> Forall (fun r => lex_rule r /\ Forall (origin data) (rule_exprs r)) rs.
  Proof.
    induction 1 as [|w t w' rest r rs W W' R Sf IH]; intros Wi; [constructor|]. apply within_right in Wi.
    destruct (rule_shape _ _ _ R Wi) as [L O]. constructor.
    - split; [exact L|]. eapply Forall_impl; [|exact O]. intros e He. apply origin_right. apply origin_left. exact He.
    - apply within_right in Wi. apply within_right in Wi. eapply Forall_impl; [|exact (IH Wi)]. cbn. intros r' [A B]. split; [exact A|].
      eapply Forall_impl; [|exact B]. intros e He. do 3 apply origin_right. exact He.
  Qed.
  Lemma parse_shape fn data f : Parse gp fn data = Ok f -> Forall (fun r => lex_rule r /\ Forall (origin data) (rule_exprs r)) (f_rules f).
  Proof. intros H. apply parse_source in H. destruct H as [U Sf]. apply source_shape; [exact Sf|]. exists [], []. rewrite app_nil_r. exact U. Qed.
End Shape.

(** ** Only answers that are used matter *)
Section Mono.
  Variables gp gp' : text -> res gexpr.
  Hypothesis more : forall t e, reads gp t e -> reads gp' t e.
  Lemma exprs_mono : (forall t v, expr_form gp t v -> expr_form gp' t v) /\ (forall t, call_form gp t -> call_form gp' t) /\
    (forall m, more_args gp m -> more_args gp' m).
  Proof.
    apply expr_forms_ind; intros.
    - apply expr_call; auto.
    - apply expr_var; auto.
    - apply expr_hole.
    - eapply call_intro; eauto.
    - apply more_nil.
    - eapply more_cons; eauto.
  Qed.
  Lemma values_mono : (forall t v, value_form gp t v -> value_form gp' t v) /\ (forall t ops, operands_form gp t ops -> operands_form gp' t ops) /\
    (forall t x, operand_form gp t x -> operand_form gp' t x).
  Proof.
    apply value_forms_ind; intros; try (constructor; eauto; fail). constructor. apply exprs_mono. assumption.
  Qed.
  Lemma rule_mono after t r : rule_form gp after t r -> rule_form gp' after t r.
  Proof.
    intros [m vm ct c w1 w2 bt b w3 res vr Vm C W1 W2 B W3 Vr En]. econstructor; eauto; try (apply values_mono; assumption).
    inversion C as [|? ? ? ? ? ? ? ? ? ? ? ? ? (u & Tr & R)]; subst; econstructor; eauto. exists u. auto.
  Qed.
  Lemma source_mono data rs : source_form gp data rs -> source_form gp' data rs.
  Proof. induction 1; econstructor; eauto. apply rule_mono. assumption. Qed.
End Mono.
