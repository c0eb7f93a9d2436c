(** Writable Go expressions can be written in a rule and read again. *)
From Verif Require Import Text GoAst Ast Utf8 GoExpr GoParser SpecPrint SpecUtf8 SpecTrim SpecSyntax SpecTrees SpecGo SpecBack PegPoints PrintFacts
  SynLex SynWords SynExpr SynValue SynRule SynFile SynShape SynPrint SynTrim GoParser GoFuel GoTree GoLex GoWords GoText GoPieces GoOrdered.
From Verif Require GoChars.
From Verif Require Import GoNames.
From Coq Require Import NArith Arith Bool Lia.
Open Scope nat_scope.

Lemma bare_unplaced e : unplaced e -> bare e = e.
Proof.
  induction e as [p x|p k v|l x r IHx|p o x IHx|x p o y IHx IHy|f l args el r IHf IHargs|p x IHx|x p s IHx|t|] using gexpr_ind'; cbn [unplaced bare]; intros U; try (intuition (subst; f_equal; auto); fail).
  destruct U as (Uf & -> & Ua & -> & ->). f_equal; auto. clear -IHargs Ua. induction IHargs as [|a args Ha F IH]; [reflexivity|]. cbn in *. destruct Ua. f_equal; auto.
Qed.
Lemma ordered_good e : ordered e -> go_bad e = [].
Proof.
  induction e as [p x|p k v|l x r IHx|p o x IHx|x p o y IHx IHy|f l args el r IHf IHargs|p x IHx|x p s IHx|t|] using gexpr_ind'; cbn [ordered go_bad]; intros O; try (intuition auto; fail).
  - destruct O as (_ & _ & _ & Ox & Oy). rewrite IHx, IHy; auto.
  - destruct O as (_ & Of & Oa). rewrite IHf by exact Of. cbn. apply fold_and in Oa. clear -IHargs Oa. induction IHargs as [|a args Ha F IH]; [reflexivity|]. inversion Oa; subst. cbn. rewrite Ha, IH; auto.
Qed.


Lemma name_alnum x : name_chars x -> Forall (fun c => is_alnum c = true) x.
Proof. intros (c & t & -> & L & F & _). constructor; [unfold is_alnum; rewrite L; reflexivity|exact F]. Qed.

Lemma text_utf8 e : ordered e -> Forall utf8 (literals e) -> utf8 (go_text e).
Proof.
  apply parts_text; [constructor|apply utf8_app|..].
  - intros x N. apply GoChars.source_utf8. apply name_source. exact N.
  - intros o _. destruct o; ascii8.
  - intros o _. destruct o; ascii8.
  - repeat constructor; ascii8.
Qed.
Definition bracket (c : ascii) : Prop := c = "]"%char \/ c = "}"%char \/ c = nl.
Lemma text_lacks c e : bracket c -> ordered e -> Forall (fun v => ~ In c v) (literals e) -> ~ In c (go_text e).
Proof.
  intros B. apply parts_text.
  - intros [].
  - intros a b Na Nb I. apply in_app_or in I. tauto.
  - intros x N I. apply name_alnum in N. rewrite Forall_forall in N. specialize (N c I). destruct B as [->|[->| ->]]; discriminate.
  - intros o _. destruct B as [->|[->| ->]]; destruct o; cbn; intuition discriminate.
  - intros o _. destruct B as [->|[->| ->]]; destruct o; cbn; intuition discriminate.
  - destruct B as [->|[->| ->]]; repeat constructor; cbn; intuition discriminate.
Qed.

(** No arrow inside, and none that could arise where texts meet. *)
Definition closed (t : text) : Prop := ~ has_arrow t /\ (forall x, t <> x ++ ["="%char]).
Lemma closed_app a b : closed a -> closed b -> closed (a ++ b).
Proof.
  intros [A A'] [B B']. split.
  - intros (x & y & E). apply app_eq_app in E. destruct E as (l & [[Ea Eb]|[Ea Eb]]).
    + destruct l as [|c l]; [cbn in Eb; apply B; exists [], y; symmetry; exact Eb|]. destruct l as [|d l].
      * cbn in Eb. inversion Eb; subst. exact (A' x eq_refl).
      * cbn in Eb. inversion Eb; subst. apply A. exists x, l. reflexivity.
    + apply B. exists l, y. exact Eb.
  - intros x E. destruct b as [|c b] using rev_ind; [rewrite app_nil_r in E; exact (A' x E)|]. rewrite app_assoc in E. apply app_inj_tail in E. destruct E as [_ ->]. exact (B' b eq_refl).
Qed.
Lemma no_eq_closed t : ~ In "="%char t -> closed t.
Proof. intros N. split; [intros (x & y & ->)|intros x ->]; apply N; rewrite !in_app_iff; cbn; auto. Qed.
Definition hard (c : ascii) : bool := is_alnum c || ch c dquote || ch c "'" || ch c "`" || ch c "." || ch c ")".
Lemma last_all (P : ascii -> Prop) l : l <> [] -> Forall P l -> exists t c, l = t ++ [c] /\ P c.
Proof. intros N F. destruct l as [|c l] using rev_ind; [congruence|]. apply Forall_app in F. destruct F as [_ F]. inversion F; subst. eauto. Qed.
Lemma last_app (P : ascii -> Prop) a l : (exists t c, l = t ++ [c] /\ P c) -> exists t c, a ++ l = t ++ [c] /\ P c.
Proof. intros (t & c & -> & H). exists (a ++ t), c. rewrite app_assoc. auto. Qed.
Lemma literal_last k v : lit_chars k v -> exists t c, v = t ++ [c] /\ hard c = true.
Proof.
  intros [[H _]|S].
  - destruct (number_last _ _ _ _ H) as (t & c & -> & L). exists t, c. split; [reflexivity|]. unfold hard. destruct L as [[-> _]| ->]; reflexivity.
  - destruct k; cbn in S; try contradiction; [destruct S as (a & -> & Q & _)|destruct S as [(a & -> & Q & _)|(a & -> & Q & _)]]; apply quoted_last in Q; destruct Q as [t ->];
      (eexists (_ :: t), _; split; [reflexivity|reflexivity]).
Qed.
Lemma ordered_literals e : ordered e -> Forall (fun v => exists k, lit_chars k v) (literals e).
Proof.
  induction e as [p x|p k v|l x r IHx|p o x IHx|x p o y IHx IHy|f l args el r IHf IHargs|p x IHx|x p s IHx|t|] using gexpr_ind'; cbn [ordered literals]; intros O; try (constructor; fail); try (intuition auto; fail).
  - constructor; [|constructor]. exists k. apply literal_iff in O. apply O.
  - destruct O as (_ & _ & _ & Ox & Oy). apply Forall_app. auto.
  - destruct O as (_ & Of & Oa). apply Forall_app. split; [auto|]. apply fold_and in Oa. clear -IHargs Oa. induction IHargs as [|a args Ha F IH]; [constructor|]. inversion Oa; subst. cbn. apply Forall_app. auto.
Qed.
Lemma text_closed e : ordered e -> Forall (fun v => ~ has_arrow v) (literals e) -> closed (go_text e).
Proof.
  intros O L. apply parts_text; auto.
  - apply no_eq_closed. intros [].
  - apply closed_app.
  - intros x N. apply no_eq_closed. intros I. apply name_alnum in N. rewrite Forall_forall in N. specialize (N _ I). discriminate.
  - assert (Sp : forall a b, ~ In "="%char b -> closed ((a ++ ["="%char]) ++ sp :: b) -> True) by auto. clear Sp. intros o H.
    assert (D : ~ In "="%char (op_text o) \/ In (op_text o) (map str [" == "; " != "; " <= "; " >= "]%string)) by (destruct o; vm_compute; intuition discriminate).
    destruct D as [D|D]; [apply no_eq_closed; exact D|]. cbn [map] in D. repeat (destruct D as [<-|D]; [split; [intros (x & y & E)|intros x E]; repeat (destruct x as [|? x]; [discriminate|]; inversion E as [[Ec E']]; clear E Ec; rename E' into E); destruct x; discriminate|]). destruct D.
  - intros o P. apply no_eq_closed. destruct P as [P| ->]; [unfold prefix_op in P; cbn in P; repeat (destruct P as [<-|P]; [cbn; intuition discriminate|]); destruct P|cbn; intuition discriminate].
  - repeat constructor; apply no_eq_closed; cbn; intuition discriminate.
  - apply ordered_literals in O. rewrite Forall_forall in *. intros v I. split; [exact (L v I)|]. intros x E. destruct (O v I) as [k H]. apply literal_last in H. destruct H as (t & c & -> & H).
    apply app_inj_tail in E. destruct E as [_ ->]. discriminate.
Qed.

(** ** First and last characters *)
Lemma text_first e : ordered e -> exists c t, go_text e = c :: t /\ ~ blank c /\ c <> "/"%char.
Proof.
  intros O. destruct (first_char e O) as (c & t & E & H). exists c, t. split; [exact E|].
  assert (F : plain c = true \/ In c (str "+-!^&<*")).
  { destruct (first_op e) as [u|]; [|auto]. destruct H as [P [t' U]]. right. destruct P as [P| ->]; [unfold prefix_op in P; cbn in P; repeat (destruct P as [<-|P]; [cbn in U; inversion U; cbn; tauto|]); destruct P|inversion U; cbn; tauto]. }
  clear -F. destruct F as [F|F].
  - unfold blank. destruct c as [[] [] [] [] [] [] [] []]; vm_compute in F; try discriminate; repeat split; (intuition discriminate) || reflexivity || discriminate.
  - cbn in F. unfold blank. repeat (destruct F as [<-|F]; [repeat split; (intuition discriminate) || reflexivity || discriminate|]). destruct F.
Qed.
Lemma text_hard e : ordered e -> exists t c, go_text e = t ++ [c] /\ hard c = true.
Proof.
  intros O. induction e as [p x|p k v|l x r IHx|p o x IHx|x p o y IHx IHy|f l args el r IHf IHargs|p x IHx|x p s IHx|t|] using gexpr_ind'; cbn [ordered go_text] in *; try contradiction.
  - apply name_iff in O. apply last_all; [destruct O as (c & t & -> & _); discriminate|]. apply name_alnum in O. eapply Forall_impl; [|exact O]. intros c H. unfold hard. rewrite H. reflexivity.
  - apply literal_iff in O. exact (literal_last k v (proj1 O)).
  - do 2 apply last_app. exists [], ")"%char. auto.
  - apply last_app. tauto.
  - do 2 apply last_app. tauto.
  - do 3 apply last_app. exists [], ")"%char. auto.
  - apply (last_app _ (str "*")). tauto.
  - do 2 apply last_app. destruct O as (_ & O & _). apply name_iff in O. apply last_all; [destruct O as (c & t & -> & _); discriminate|]. apply name_alnum in O. eapply Forall_impl; [|exact O]. intros c H. unfold hard. rewrite H. reflexivity.
Qed.
Lemma solid_starts c t : (32 < byte_val c < 128)%N -> solid_start (c :: t).
Proof. intros B. exists [c], t. split; [reflexivity|]. apply solid_byte. exact B. Qed.
Lemma solid_ends t c : (32 < byte_val c < 128)%N -> solid_end (t ++ [c]).
Proof. intros B. exists t, [c]. split; [reflexivity|]. apply solid_byte. exact B. Qed.
Lemma literal_solid k v : lit_chars k v -> solid_start v /\ solid_end v.
Proof.
  intros [[H (c & t & -> & C)]|S].
  - split.
    + apply solid_starts. apply orb_true_iff in C. destruct C as [C|C]; [|apply andb_true_iff in C; destruct C as [C _]]; destruct c as [[] [] [] [] [] [] [] []]; vm_compute in C; try discriminate; split; reflexivity.
    + destruct (number_last _ _ _ _ H) as (t' & d & -> & L). apply solid_ends. destruct L as [[L L']| ->]; [|split; reflexivity]. destruct d as [[] [] [] [] [] [] [] []]; vm_compute in L; vm_compute in L'; try discriminate; split; reflexivity.
  - assert (X : exists q a t, v = q :: a /\ a = t ++ [q] /\ (q = dquote \/ q = "'"%char \/ q = "`"%char)).
    { destruct k; cbn in S; try contradiction; [destruct S as (a & -> & Q & _)|destruct S as [(a & -> & Q & _)|(a & -> & Q & _)]]; apply quoted_last in Q; destruct Q as [t ->]; eauto 8. }
    destruct X as (q & a & t & -> & -> & Q). assert (B : (32 < byte_val q < 128)%N) by (destruct Q as [->|[->| ->]]; split; reflexivity).
    split; [apply solid_starts; exact B|]. exact (solid_ends (q :: t) q B).
Qed.
Lemma name_solid_both x : name_chars x -> solid_start x /\ solid_end x.
Proof. intros (c & t & -> & _ & _ & _ & G). apply good_name_iff in G. split; [apply text_start; exact G|]. apply (text_end _ _ G). discriminate. Qed.
Lemma text_solid e : ordered e -> solid_start (go_text e) /\ solid_end (go_text e).
Proof.
  intros O. induction e as [p x|p k v|l x r IHx|p o x IHx|x p o y IHx IHy|f l args el r IHf IHargs|p x IHx|x p s IHx|t|] using gexpr_ind'; cbn [ordered go_text] in *; try contradiction.
  - apply name_iff in O. apply name_solid_both. exact O.
  - apply literal_iff in O. apply (literal_solid k v). apply O.
  - split; [apply solid_starts; split; reflexivity|]. do 2 apply end_app. apply (solid_ends []). split; reflexivity.
  - destruct O as (P & _ & O). split; [|apply end_app; tauto].
    unfold prefix_op in P. cbn in P. repeat (destruct P as [<-|P]; [apply solid_starts; split; reflexivity|]). destruct P.
  - destruct O as (_ & _ & _ & Ox & Oy). split; [apply start_app; tauto|]. do 2 apply end_app. tauto.
  - destruct O as (_ & Of & _). split; [apply start_app; tauto|]. do 3 apply end_app. apply (solid_ends []). split; reflexivity.
  - destruct O as (_ & O). split; [apply solid_starts; split; reflexivity|]. apply (end_app (str "*")). tauto.
  - destruct O as (_ & Os & Ox). split; [apply start_app; tauto|]. do 2 apply end_app. apply name_iff in Os. apply name_solid_both. exact Os.
Qed.
Lemma trim_text e : ordered e -> ~ In nl (go_text e) -> trim_space (newlines_to_spaces (go_text e)) = go_text e.
Proof.
  intros O N. assert (newlines_to_spaces (go_text e) = go_text e) as ->.
  { unfold newlines_to_spaces. clear O. induction (go_text e) as [|c t IH]; [reflexivity|]. cbn in *. destruct (ascii_dec c nl); [subst; tauto|]. f_equal. apply IH. tauto. }
  apply trim_space_spec. exists [], []. rewrite app_nil_r. split; [reflexivity|]. split; [constructor|]. split; [constructor|]. split; intros k r K; apply space_char_iff in K.
  - apply (start_no_space (go_text e)); [apply text_solid; exact O|exact K].
  - apply (end_no_space (go_text e)); [apply text_solid; exact O|exact K].
Qed.

(** ** The three places *)
Lemma both {A} (P Q R : A -> Prop) l : (forall a, P a /\ Q a -> R a) -> Forall (fun a => P a /\ Q a) l -> Forall R l.
Proof. intros H. apply Forall_impl. exact H. Qed.
Lemma placed_prints P e : placed P e -> prints e.
Proof. intros (O & _ & L). split; [apply ordered_good; exact O|]. apply text_utf8; [exact O|]. eapply both; [|exact L]. cbn. tauto. Qed.
Lemma placed_reads P e : placed P e -> smooth e -> reads ParseExpr (go_text e) e.
Proof. intros (O & U & _) S. rewrite <- (bare_unplaced e U) at 2. apply go_text_reads; assumption. Qed.
Lemma placed_aux gp sg c e : bracket c -> placed (fun v => ~ In c v) e -> reads gp (go_text e) (sg e) -> sub_aux gp sg c e.
Proof.
  intros B W R. split; [exact (placed_prints _ _ W)|]. destruct W as (O & _ & L). split; [|split; [|exact R]].
  - destruct (text_first e O) as (d & t & -> & _). discriminate.
  - apply text_lacks; auto. eapply both; [|exact L]. cbn. tauto.
Qed.
Lemma placed_cond gp sg e : placed (fun v => ~ In nl v /\ ~ has_arrow v) e -> reads gp (go_text e) (sg e) -> sub_cond gp sg e.
Proof.
  intros W R. split; [exact (placed_prints _ _ W)|]. destruct W as (O & _ & L). split; [|split].
  - destruct (text_first e O) as (d & t & -> & B & N). eauto.
  - intros x y E. exfalso. assert (C : closed (go_text e)) by (apply text_closed; [exact O|]; eapply both; [|exact L]; cbn; tauto). apply C. exists x, y. exact E.
  - apply reads_cond_iff. rewrite trim_text; [exact R|exact O|]. apply text_lacks; [right; right; reflexivity|exact O|]. eapply both; [|exact L]. cbn. tauto.
Qed.

(** ** Calls *)
Lemma call_smooth e : call_arg e -> smooth e.
Proof.
  induction e as [p x|p k v|l x r IHx|p o x IHx|x p o y IHx IHy|f l args el r IHf IHargs|p x IHx|x p s IHx|t|] using gexpr_ind'; cbn [call_arg smooth]; try tauto.
  destruct f; try contradiction. intros (_ & _ & A). split; [exact I|]. apply fold_and in A. apply fold_and. clear IHf. induction IHargs; inversion A; subst; constructor; auto.
Qed.
Lemma more_text l : Forall (fun a => exists v, expr_form ParseExpr (go_text a) v) l ->
  more_args ParseExpr (List.concat (map (fun a => str ", " ++ go_text a) l)).
Proof.
  induction 1 as [|a l [v E] F IH]; cbn [map List.concat]; [constructor|]. change (str ", " ++ go_text a) with ([] ++ str "," ++ str " " ++ go_text a). rewrite <- !app_assoc.
  eapply more_cons; [constructor|apply ws1_sp|exact E|exact IH].
Qed.
Lemma sep_more a l : sep_by (str ", ") (map go_text (a :: l)) = go_text a ++ List.concat (map (fun a => str ", " ++ go_text a) l).
Proof.
  revert a. induction l as [|b l IH]; intros a; [cbn; rewrite app_nil_r; reflexivity|].
  change (sep_by (str ", ") (map go_text (a :: b :: l))) with (go_text a ++ str ", " ++ sep_by (str ", ") (map go_text (b :: l))). rewrite IH. cbn [map List.concat]. rewrite <- app_assoc. reflexivity.
Qed.
Lemma call_text e : ordered e -> call_arg e ->
  exists v, expr_form ParseExpr (go_text e) v /\ match e with GCall _ _ _ _ _ => v = EVal (bare e) | _ => True end.
Proof.
  induction e as [p x|p k v|l x r IHx|p o x IHx|x p o y IHx IHy|f l args el r IHf IHargs|p x IHx|x p s IHx|t|] using gexpr_ind'; intros O C; try (destruct C; fail).
  - cbn [call_arg go_text] in *. destruct C as [C| ->]; eexists; (split; [|exact I]); [apply expr_var; exact C|apply expr_hole].
  - exists (EVal (bare (GCall f l args el r))). split; [|reflexivity]. apply expr_call; [|apply go_text_reads; [exact O|apply call_smooth; exact C]].
    cbn [call_arg ordered] in *. destruct f as [p f| | | | | | | | |]; try contradiction. destruct C as (Hf & Ne & A). destruct O as (_ & _ & Oa). apply fold_and in A, Oa.
    assert (X : Forall (fun a => exists v, expr_form ParseExpr (go_text a) v) args).
    { rewrite Forall_forall in *. intros a I. destruct (IHargs a I (Oa a I) (A a I)) as (v & E & _). eauto. }
    destruct args as [|a args]; [congruence|]. inversion X as [|? ? [v Ev] Xs]; subst. cbn [go_text]. rewrite sep_more, <- !app_assoc.
    apply (call_intro ParseExpr f [] (go_text a) v _ []); [exact Hf|constructor|exact Ev|exact (more_text _ Xs)|constructor].
Qed.
Lemma placed_call P e : placed P e -> call_value e -> expr_form ParseExpr (go_text e) (EVal e).
Proof.
  intros (O & U & _) [C K]. destruct (call_text e O C) as (v & E & V). destruct e; try contradiction. rewrite V in E.
  rewrite (bare_unplaced _ U) in E. exact E.
Qed.

(** Placed rules are those of the general theorem, for any reader that reads what Go reads. *)
Section Sub.
  Variable gp : text -> res gexpr.
  Hypothesis M : forall t e, reads ParseExpr t e -> reads gp t e.
  Variable sg : gexpr -> gexpr.
  Lemma placed_go_value v : placed_value v -> Forall (fun e => reads gp (go_text e) (sg e)) (value_exprs v) -> sub_go_value gp sg v.
  Proof.
    induction v as [[b o ty ai ax args el tr] IH|e|x|] using value_ind'; cbn [placed_value sub_go_value value_exprs s_auxint s_aux s_args]; auto.
    - rewrite !fold_and, !Forall_app. intros (A & B & C) (RA & RB & RC). cbn [s_args] in IH. rewrite Forall_forall in IH, A, B, C, RA, RB, RC. split; [|split]; apply Forall_forall.
      + intros e I. apply placed_aux; auto. left. reflexivity.
      + intros e I. apply placed_aux; auto. right. left. reflexivity.
      + intros a I. apply IH; auto. apply Forall_forall. intros e Ie. apply RC. apply in_flat_map. eauto.
    - intros [W C] R. inversion R as [|? ? R' _]; subst. split; [exact (placed_prints _ _ W)|]. pose proof (placed_call _ _ W C) as E.
      assert (sg e = e) as ->.
      { pose proof (M _ _ (placed_reads _ _ W (call_smooth _ (proj1 C)))) as (r1 & E1 & _ & ->). destruct R' as (r2 & E2 & _ & ->). congruence. }
      apply (proj1 (exprs_mono ParseExpr gp M)). exact E.
  Qed.
  Lemma placed_go_rule r : placed_rule r -> Forall (fun e => reads gp (go_text e) (sg e)) (rule_exprs r) -> sub_go_rule gp sg r.
  Proof.
    intros (A & B & C) R. unfold rule_exprs in R. rewrite !Forall_app in R. destruct R as (RA & RB & RC). split; [apply placed_go_value; assumption|]. split; [|apply placed_go_value; assumption].
    rewrite Forall_forall in *. intros e I. apply placed_cond; auto.
  Qed.
End Sub.
Lemma placed_each r : placed_rule r -> Forall (placed (fun _ => True)) (rule_exprs r).
Proof.
  assert (W : forall (P : text -> Prop) e, placed P e -> placed (fun _ => True) e).
  { intros P e (O & U & L). split; [exact O|]. split; [exact U|]. eapply Forall_impl; [|exact L]. cbn. tauto. }
  assert (V : forall v, placed_value v -> Forall (placed (fun _ => True)) (value_exprs v)).
  { induction v as [[b o ty ai ax args el tr] IH|e|x|] using value_ind'; cbn [placed_value value_exprs s_auxint s_aux s_args]; try constructor; try tauto; try constructor.
    rewrite fold_and. intros (A & B & C). rewrite !Forall_app. split; [eapply Forall_impl; [|exact A]; apply W|]. split; [eapply Forall_impl; [|exact B]; apply W|].
    cbn [s_args] in IH. rewrite Forall_forall in *. intros e I. apply in_flat_map in I. destruct I as (a & I & Ie). specialize (IH a I (C a I)). rewrite Forall_forall in IH. auto. }
  intros (A & B & C). unfold rule_exprs. rewrite !Forall_app. split; [auto|]. split; [eapply Forall_impl; [|exact B]; apply W|auto].
Qed.
Lemma writable_go_rule r : writable_rule r -> go_rule ParseExpr r.
Proof.
  intros [W S]. apply (placed_go_rule ParseExpr (fun t e H => H) (fun e => e) r W). pose proof (placed_each r W) as E. rewrite Forall_forall in *. intros e I. eapply placed_reads; eauto.
Qed.

(** ** Literals of a parsed text *)
Section Lits.
  Variable P : text -> Prop.
  Definition lits (ts : list ptok) : Prop := Forall (fun t => match fst t with TLit _ v => P v | _ => True end) ts.
  Definition out_lits (r : gexpr * list ptok) : Prop := Forall P (literals (fst r)) /\ lits (snd r).
  Lemma tree_literals n :
    (forall prec ts, lits ts -> yields (gp_binary n prec ts) out_lits) /\
    (forall prec x ts, Forall P (literals x) -> lits ts -> yields (gp_binloop n prec x ts) out_lits) /\
    (forall ts, lits ts -> yields (gp_unary n ts) out_lits) /\
    (forall x ts, Forall P (literals x) -> lits ts -> yields (gp_primary n x ts) out_lits) /\
    (forall ts, lits ts -> yields (gp_args n ts) (fun r => Forall P (flat_map literals (fst (fst (fst r)))) /\ lits (snd r))).
  Proof.
    unfold out_lits. induction n as [|n (Hb & Hl & Hu & Hp & Ha)]; [repeat split; intros; discriminate|]. split; [|split; [|split; [|split]]].
    - intros prec ts G. cbn [gp_binary]. eapply yields_bind; [apply Hu; exact G|]. intros [x t] (O & G'). cbn [fst snd] in *. apply Hl; auto.
    - intros prec x ts O G. cbn [gp_binloop].
      assert (Stop : yields (Ok (x, ts)) (fun r => Forall P (literals (fst r)) /\ lits (snd r))) by (apply yields_ok; cbn; auto).
      destruct ts as [|[[] p] ts]; try exact Stop. destruct ((0 <? tok_prec o) && (prec <=? tok_prec o)); [|exact Stop]. clear Stop. inversion G; subst.
      eapply yields_bind; [apply Hb; assumption|]. intros [y t] (Oy & Gy). cbn [fst snd] in *. apply Hl; auto. cbn. apply Forall_app. auto.
    - intros ts G. cbn [gp_unary]. destruct ts as [|[[] p] ts]; try exact (yields_err _); inversion G as [|? ? Gt Gts]; subst; cbn [fst] in Gt.
      + apply Hp; [constructor|exact Gts].
      + apply Hp; [constructor; [exact Gt|constructor]|exact Gts].
      + destruct (unary_op o).
        * eapply yields_bind; [apply Hu; exact Gts|]. intros [x t] (Ox & Gx). apply yields_ok. cbn [fst snd] in *. auto.
        * destruct o; try exact (yields_err _). eapply yields_bind; [apply Hu; exact Gts|]. intros [x t] (Ox & Gx). apply yields_ok. cbn [fst snd] in *. auto.
      + eapply yields_bind; [apply Hb; exact Gts|]. intros [x t] (Ox & Gx). cbn [fst snd] in *. destruct t as [|[[] q] t]; try exact (yields_err _). inversion Gx; subst. apply Hp; assumption.
    - intros x ts O G. cbn [gp_primary]. destruct ts as [|[[] p] ts]; try (apply yields_ok; cbn; auto; fail); inversion G as [|? ? Gt Gts]; subst.
      + eapply yields_bind; [apply Ha; exact Gts|]. intros [[[ar el] q] t] (Oa & Gr). cbn [fst snd] in *. apply Hp; auto. cbn. apply Forall_app. auto.
      + destruct ts as [|[[] q] ts]; try exact (yields_err _). inversion Gts as [|? ? Gn Gts']; subst. apply Hp; auto.
    - intros ts G.
      assert (Gen : yields (bind (gp_binary n 1 ts) (fun at_ => let '(a, ts') := at_ in
            match ts' with
            | (TEllipsis, e) :: (TRParen, q) :: ts'' => Ok ([a], e, q, ts'')
            | (TEllipsis, e) :: (TComma, _) :: (TRParen, q) :: ts'' => Ok ([a], e, q, ts'')
            | (TComma, _) :: ts'' => bind (gp_args n ts'') (fun r => let '(args, el, q, ts3) := r in Ok (a :: args, el, q, ts3))
            | (TRParen, q) :: ts'' => Ok ([a], NoPos, q, ts'')
            | _ => syntax_error
            end)) (fun r => Forall P (flat_map literals (fst (fst (fst r)))) /\ lits (snd r))).
      { eapply yields_bind; [apply Hb; exact G|]. intros [a t] (Oa & Gt). cbn [fst snd] in *.
        assert (O1 : Forall P (flat_map literals [a])) by (cbn; rewrite app_nil_r; exact Oa).
        destruct t as [|[[] q] t]; try exact (yields_err _); inversion Gt; subst.
        - apply yields_ok. cbn [fst snd]. auto.
        - eapply yields_bind; [apply Ha; assumption|]. intros [[[ar el] q'] t'] (Oar & Gr). apply yields_ok. cbn [fst snd flat_map] in *. split; [apply Forall_app; auto|exact Gr].
        - destruct t as [|[[] q1] t]; try exact (yields_err _).
          + match goal with H : Forall _ (_ :: t) |- _ => inversion H; subst end. apply yields_ok. cbn [fst snd]. auto.
          + destruct t as [|[[] q2] t]; try exact (yields_err _). match goal with H : Forall _ (_ :: _ :: t) |- _ => inversion H as [|? ? ? H']; subst; inversion H'; subst end. apply yields_ok. cbn [fst snd]. auto. }
      cbn [gp_args]. destruct ts as [|[[] p] ts]; try exact Gen. apply yields_ok. cbn [fst snd]. split; [constructor|]. inversion G; assumption.
  Qed.
End Lits.
Lemma literals_bare e : literals (bare e) = literals e.
Proof.
  induction e as [p x|p k v|l x r IHx|p o x IHx|x p o y IHx IHy|f l args el r IHf IHargs|p x IHx|x p s IHx|t|] using gexpr_ind'; cbn [bare literals]; try congruence.
  rewrite IHf. f_equal. clear -IHargs. induction IHargs; cbn; congruence.
Qed.
Lemma reads_literals s e : reads ParseExpr s e -> Forall (fun v => piece_of s v /\ (within s -> utf8 v)) (literals e).
Proof.
  intros (raw & E & _ & ->). rewrite literals_bare. unfold ParseExpr in E. destruct (scan s) as [ts|x|x] eqn:Sc; cbn [bind] in E; try discriminate. apply scan_literals in Sc.
  destruct (gp_binary (4 * List.length ts + 4) 1 ts) as [[e' r]|x|x] eqn:G; cbn [bind] in E; try discriminate.
  pose proof (proj1 (tree_literals (fun v => piece_of s v /\ (within s -> utf8 v)) (4 * List.length ts + 4)) 1 ts) as X.
  specialize (X ltac:(eapply Forall_impl; [|exact Sc]; intros [[] q]; cbn; auto; intros [Pc Sv]; split; [exact Pc|intros _; exact (GoChars.source_utf8 _ Sv)]) _ G). destruct X as [X _]. cbn [fst] in X.
  destruct r as [|[[] p] [|? ?]]; inversion E; subst; exact X.
Qed.

(** ** Parsed calls *)
(** The tokens of a call: keywords in the place of names and semicolons at line ends
    are possible, and no parse. *)
Definition semis (ts : list ptok) : Prop := Forall (fun t => fst t = TSemi) ts.
Definition named (x : text) (t : gtoken) : Prop := t = TIdent x \/ t = TBad.
Inductive arg_toks : list ptok -> Prop :=
| arg_name x t p : ident x \/ x = str "_" -> named x t -> arg_toks [(t, p)]
| arg_call ts : call_toks ts -> arg_toks ts
with call_toks : list ptok -> Prop :=
| call_of f t p q a sm more r : ident f -> named f t -> arg_toks a -> more_toks more -> semis sm ->
    call_toks ((t, p) :: (TLParen, q) :: a ++ more ++ sm ++ [(TRParen, r)])
with more_toks : list ptok -> Prop :=
| more_none : more_toks []
| more_one sm q a more : semis sm -> arg_toks a -> more_toks more -> more_toks (sm ++ (TComma, q) :: a ++ more).
Scheme arg_toks_ind2 := Induction for arg_toks Sort Prop
  with call_toks_ind2 := Induction for call_toks Sort Prop
  with more_toks_ind2 := Induction for more_toks Sort Prop.
Combined Scheme call_toks_mut from arg_toks_ind2, call_toks_ind2, more_toks_ind2.

Definition ends_arg (rest : list ptok) : Prop := match rest with [] => True | (t, _) :: _ => t = TSemi \/ t = TComma \/ t = TRParen end.
Definition only (rest : list ptok) (Q : gexpr -> Prop) (r : gexpr * list ptok) : Prop := Q (fst r) /\ snd r = rest.
Lemma loop_ends n prec x rest : ends_arg rest -> gp_binloop (S n) prec x rest = Ok (x, rest).
Proof. intros H. cbn. destruct rest as [|[[] p] rest]; cbn in H; try (intuition discriminate); reflexivity. Qed.
Lemma primary_ends n x rest : ends_arg rest -> gp_primary (S n) x rest = Ok (x, rest).
Proof. intros H. cbn. destruct rest as [|[[] p] rest]; cbn in H; try (intuition discriminate); reflexivity. Qed.
Lemma from_unary ts rest Q : ends_arg rest -> (forall n, yields (gp_unary n (ts ++ rest)) (only rest Q)) -> forall n prec, yields (gp_binary n prec (ts ++ rest)) (only rest Q).
Proof.
  intros E U [|n] prec; [discriminate|]. cbn [gp_binary]. eapply yields_bind; [apply U|]. intros [e r] [H Rr]. cbn [fst snd] in *. subst r. destruct n as [|n]; [discriminate|]. rewrite loop_ends by exact E. apply yields_ok. split; [exact H|reflexivity].
Qed.
Lemma from_primary x rest (Q : gexpr -> Prop) : ends_arg rest -> Q x -> forall n, yields (gp_primary n x rest) (only rest Q).
Proof. intros E H [|n]; [discriminate|]. rewrite primary_ends by exact E. apply yields_ok. split; [exact H|reflexivity]. Qed.
Lemma semis_ends sm rest : semis sm -> ends_arg rest -> ends_arg (sm ++ rest).
Proof. intros S E. destruct S as [|[t p] sm H S]; [exact E|]. cbn in *. auto. Qed.

Lemma more_ends more rest : more_toks more -> ends_arg rest -> ends_arg (more ++ rest).
Proof. intros [|sm q a m S A M] E; [exact E|]. rewrite <- !app_assoc. apply semis_ends; [exact S|]. cbn. auto. Qed.
(** What remains of the arguments after the first one. *)
Definition rest_args (n : nat) (a : gexpr) (ts' : list ptok) : res (list gexpr * gopos * gopos * list ptok) :=
  match ts' with
  | (TEllipsis, e) :: (TRParen, q) :: ts'' => Ok ([a], e, q, ts'')
  | (TEllipsis, e) :: (TComma, _) :: (TRParen, q) :: ts'' => Ok ([a], e, q, ts'')
  | (TComma, _) :: ts'' => bind (gp_args n ts'') (fun r => let '(args, el, q, ts3) := r in Ok (a :: args, el, q, ts3))
  | (TRParen, q) :: ts'' => Ok ([a], NoPos, q, ts'')
  | _ => syntax_error
  end.
Definition args_only (rest : list ptok) (r : list gexpr * gopos * gopos * list ptok) : Prop :=
  fst (fst (fst r)) <> [] /\ Forall call_arg (fst (fst (fst r))) /\ snd r = rest.
Lemma args_step n ts : (match ts with (TRParen, _) :: _ => False | _ => True end) -> gp_args (S n) ts = bind (gp_binary n 1 ts) (fun at_ => let '(a, ts') := at_ in rest_args n a ts').
Proof. intros H. cbn [gp_args]. destruct ts as [|[[] p] ts]; try contradiction; reflexivity. Qed.
Lemma arg_starts ts rest : arg_toks ts -> match ts ++ rest with (TRParen, _) :: _ => False | _ => True end.
Proof. intros [x t p _ [->| ->]|? [f t p q a sm more r _ [->| ->] _ _ _]]; exact I. Qed.

Definition good_arg (ts : list ptok) : Prop := forall rest, ends_arg rest -> forall n prec, yields (gp_binary n prec (ts ++ rest)) (only rest call_arg).
Definition good_call (ts : list ptok) : Prop := forall rest, ends_arg rest -> forall n prec, yields (gp_binary n prec (ts ++ rest)) (only rest call_value).
Definition good_more (ts : list ptok) : Prop := forall sm r rest a n, semis sm -> call_arg a -> yields (rest_args n a (ts ++ sm ++ (TRParen, r) :: rest)) (args_only rest).
Lemma good_args a more sm r rest : arg_toks a -> good_arg a -> more_toks more -> good_more more -> semis sm -> forall n, yields (gp_args n (a ++ more ++ sm ++ (TRParen, r) :: rest)) (args_only rest).
Proof.
  intros A Ga M Gm S [|n]; [discriminate|]. rewrite args_step by (apply arg_starts; exact A).
  eapply yields_bind; [apply Ga; apply more_ends; [exact M|]; apply semis_ends; [exact S|]; cbn; auto|]. intros [x t] [Hx Rr]. cbn [fst snd] in *. subst t. apply Gm; assumption.
Qed.
Lemma calls_parse : (forall ts, arg_toks ts -> good_arg ts) /\ (forall ts, call_toks ts -> good_call ts) /\ (forall ts, more_toks ts -> good_more ts).
Proof.
  apply call_toks_mut.
  - intros x t p Hx Ht rest E. apply from_unary; [exact E|]. intros [|n]; [discriminate|]. cbn [gp_unary app]. destruct Ht as [->| ->]; [|exact (yields_err _)]. apply from_primary; [exact E|]. exact Hx.
  - intros ts _ G rest E n prec. eapply yields_weak; [apply G; exact E|]. intros r [[H _] R]. split; assumption.
  - intros f t p q a sm more r Hf Ht A Ga M Gm S rest E. apply from_unary; [exact E|]. intros [|n]; [discriminate|]. cbn [gp_unary app]. destruct Ht as [->| ->]; [|exact (yields_err _)].
    destruct n as [|n]; [discriminate|]. cbn [gp_primary]. rewrite <- !app_assoc. cbn [app]. eapply yields_bind; [apply (good_args a more sm r rest); assumption|].
    intros [[[ar el] qq] t] (Ne & Fa & Rr). cbn [fst snd] in *. subst. apply from_primary; [exact E|]. split; [|exact I]. cbn. split; [exact Hf|]. split; [exact Ne|]. apply fold_and. exact Fa.
  - intros sm r rest a n S Ha. cbn [app]. destruct S as [|[t p] sm Ht S]; cbn [app].
    + cbn [rest_args]. apply yields_ok. split; [discriminate|]. split; [repeat constructor; exact Ha|reflexivity].
    + cbn in Ht. subst t. exact (yields_err _).
  - intros sm q a more S A Ga M Gm sm' r rest x n S' Hx. destruct S as [|[t p] sm Ht S]; cbn [app].
    + cbn [rest_args]. rewrite <- !app_assoc. eapply yields_bind; [apply (good_args a more sm' r rest); assumption|]. intros [[[ar el] qq] t] (Ne & Fa & Rr). cbn [fst snd] in *. subst. apply yields_ok. split; [discriminate|]. split; [constructor; assumption|reflexivity].
    + cbn in Ht. subst t. exact (yields_err _).
Qed.

(** ** The tokens of a call text *)
Lemma emits_inv n k semi pos l b ts : emits n k semi pos l b = Ok ts -> exists us, ts = (k, pos) :: us /\ lex n semi (pos + N.of_nat l)%N b = Ok us.
Proof. unfold emits. destruct (lex n semi (pos + N.of_nat l)%N b) as [us|e|x]; try discriminate. intros H. inversion H. eauto. Qed.
Definition then_ (semi : bool) (b : text) (ts : list ptok) (P : list ptok -> Prop) (Q : bool -> list ptok -> Prop) : Prop :=
  exists n semi' pos us tail, ts = us ++ tail /\ P us /\ Q semi' us /\ lex n semi' pos b = Ok tail.
Lemma lex_ws w : ws w -> forall n semi pos b ts, lex n semi pos (w ++ b) = Ok ts -> then_ semi b ts semis (fun semi' us => semi = false -> semi' = false /\ us = []).
Proof.
  induction 1 as [|k t K W IH]; intros n semi pos b ts E.
  - exists n, semi, pos, [], ts. repeat split; auto; try constructor; assumption.
  - rewrite <- app_assoc in E. destruct n as [|n]; [discriminate|].
    assert (Nl : forall n pos ts, lex (S n) semi pos (nl :: t ++ b) = Ok ts -> then_ semi b ts semis (fun semi' us => semi = false -> semi' = false /\ us = [])).
    { clear E n pos ts. intros n pos ts E. cbn [lex] in E. change (ch nl nl) with true in E. cbv iota in E. destruct semi.
      - apply emits_inv in E. destruct E as (us & -> & E). destruct (IH _ _ _ _ _ E) as (m & s' & p' & vs & tl & -> & Sv & Q & El). exists m, s', p', ((TSemi, pos) :: vs), tl. split; [reflexivity|]. split; [constructor; auto|]. split; [discriminate|exact El].
      - exact (IH _ _ _ _ _ E). }
    destruct K as [c B|a Na].
    + destruct B as [->|[->|[->| ->]]]; [exact (IH _ _ _ _ _ E)..|]. exact (Nl _ _ _ E).
    + cbn [app str list_ascii_of_string] in E. cbn [lex] in E.
      change (ch "/" nl) with false in E. change (ch "/" sp || ch "/" tab || ch "/" cr) with false in E. change (is_letter "/") with false in E. change (is_digit "/" || (ch "/" "." && is_digit "/")) with false in E.
      change (ch "/" dquote) with false in E. change (ch "/" "'") with false in E. change (ch "/" "`") with false in E. change (ch "/" "/" && ch "/" "/") with true in E. cbv iota in E.
      rewrite <- app_assoc in E. cbn [app] in E.
      rewrite (span_app (fun x => negb (ch x nl)) a (nl :: t ++ b)) in E.
      * destruct n as [|n]; [discriminate|]. exact (Nl _ _ _ E).
      * apply Forall_forall. intros c I. destruct (ch c nl) eqn:X; [apply ch_eq in X; subst; contradiction|reflexivity].
      * intros c r X. inversion X; subst. reflexivity.
Qed.
Lemma lex_word x b : (ident x \/ x = str "_") -> alnum_end b -> forall n semi pos ts, lex n semi pos (x ++ b) = Ok ts ->
  exists n' semi' pos' t tail, ts = (t, pos) :: tail /\ named x t /\ lex n' semi' pos' b = Ok tail.
Proof.
  intros Hx A n semi pos ts E. destruct n as [|n]; [discriminate|].
  assert (X : exists c t, x = c :: t /\ is_letter c = true /\ Forall (fun c => is_alnum c = true) t).
  { destruct Hx as [(c & t & -> & L & F)| ->]; [|exists "_"%char, []; auto]. exists c, t. split; [reflexivity|]. split; [unfold is_letter; rewrite L; reflexivity|].
    eapply Forall_impl; [|exact F]. intros d. unfold word_char, is_alnum, is_letter, is_digit. intros [->|[->|[->| ->]]]; rewrite ?orb_true_r; reflexivity. }
  destruct X as (c & t & -> & L & F). destruct (letter_class c L) as (C1 & C2 & C3). cbn [app lex] in E. rewrite C1, C2, L in E. change (c :: t ++ b) with ((c :: t) ++ b) in E. rewrite (span_app is_alnum (c :: t) b (Forall_cons _ C3 F) A) in E.
  destruct (is_keyword (c :: t)); [|destruct (good_name (c :: t)); [|discriminate]]; apply emits_inv in E; destruct E as (us & -> & E); eexists _, _, _, _, us; (split; [reflexivity|]); (split; [|exact E]); [right|left]; reflexivity.
Qed.
Lemma alnum_end_char c b : is_alnum c = false -> alnum_end (c :: b).
Proof. intros H d r E. inversion E; subst. exact H. Qed.
Lemma alnum_end_ws w b : ws w -> alnum_end b -> alnum_end (w ++ b).
Proof.
  intros W A. destruct w as [|c w]; [exact A|]. apply ws_first in W. apply alnum_end_char. destruct W as [[->|[->|[->| ->]]]| ->]; reflexivity.
Qed.
Lemma step_lp n semi pos b : lex (S n) semi pos (str "(" ++ b) = emits n TLParen false pos 1 b. Proof. exact (step_punct n semi pos TLParen b (or_introl eq_refl)). Qed.
Lemma step_rp n semi pos b : lex (S n) semi pos (str ")" ++ b) = emits n TRParen true pos 1 b. Proof. exact (step_punct n semi pos TRParen b (or_intror (or_introl eq_refl))). Qed.
Lemma step_cm n semi pos b : lex (S n) semi pos (str "," ++ b) = emits n TComma false pos 1 b. Proof. exact (step_punct n semi pos TComma b (or_intror (or_intror eq_refl))). Qed.
Lemma lex_calls gp :
  (forall t v, expr_form gp t v -> forall b n semi pos ts, alnum_end b -> lex n semi pos (t ++ b) = Ok ts -> then_ semi b ts arg_toks (fun _ _ => True)) /\
  (forall t, call_form gp t -> forall b n semi pos ts, lex n semi pos (t ++ b) = Ok ts -> then_ semi b ts call_toks (fun _ _ => True)) /\
  (forall t, more_args gp t -> (forall b, alnum_end b -> alnum_end (t ++ b)) /\ forall b n semi pos ts, alnum_end b -> lex n semi pos (t ++ b) = Ok ts -> then_ semi b ts more_toks (fun _ _ => True)).
Proof.
  apply expr_forms_ind.
  - intros t e C IH _ b n semi pos ts _ E. destruct (IH _ _ _ _ _ E) as (m & s' & p' & us & tl & -> & Cu & _ & El). exists m, s', p', us, tl. repeat split; auto. apply arg_call. exact Cu.
  - intros x Hx b n semi pos ts A E. destruct (lex_word x b (or_introl Hx) A _ _ _ _ E) as (m & s' & p' & t & tl & -> & Ht & El). exists m, s', p', [(t, pos)], tl. repeat split; auto. apply (arg_name x); auto.
  - intros b n semi pos ts A E. destruct (lex_word (str "_") b (or_intror eq_refl) A _ _ _ _ E) as (m & s' & p' & t & tl & -> & Ht & El). exists m, s', p', [(t, pos)], tl. repeat split; auto. apply (arg_name (str "_")); auto.
  - intros f w a v more w' Hf W _ IHa _ [IHe IHm] W' b n semi pos ts E. rewrite <- !app_assoc in E.
    destruct (lex_word f _ (or_introl Hf) (alnum_end_char "("%char _ eq_refl) _ _ _ _ E) as (n1 & s1 & p1 & tf & t1 & -> & Htf & E1).
    destruct n1 as [|n1]; [discriminate|]. change (lex (S n1) s1 p1 (str "(" ++ w ++ a ++ more ++ w' ++ str ")" ++ b) = Ok t1) in E1. rewrite (step_lp n1 s1 p1) in E1. apply emits_inv in E1. destruct E1 as (t2 & -> & E2).
    destruct (lex_ws w W _ _ _ _ _ E2) as (n3 & s3 & p3 & u3 & t3 & -> & _ & Q3 & E3). destruct (Q3 eq_refl) as [-> ->].
    assert (A' : alnum_end (w' ++ str ")" ++ b)) by (apply alnum_end_ws; [exact W'|]; apply alnum_end_char; reflexivity).
    destruct (IHa _ _ _ _ _ (IHe _ A') E3) as (n4 & s4 & p4 & u4 & t4 & -> & Ta & _ & E4).
    destruct (IHm _ _ _ _ _ A' E4) as (n5 & s5 & p5 & u5 & t5 & -> & Tm & _ & E5).
    destruct (lex_ws w' W' _ _ _ _ _ E5) as (n6 & s6 & p6 & u6 & t6 & -> & Sm & _ & E6).
    destruct n6 as [|n6]; [discriminate|]. rewrite (step_rp n6 s6 p6) in E6. apply emits_inv in E6. destruct E6 as (t7 & -> & E7).
    eexists n6, _, _, ((tf, pos) :: (TLParen, p1) :: u4 ++ u5 ++ u6 ++ [(TRParen, p6)]), t7. split; [cbn [app]; rewrite <- !app_assoc; reflexivity|]. split; [apply (call_of f); assumption|]. split; [exact I|exact E7].
  - split; [intros b A; exact A|]. intros b n semi pos ts A E. exists n, semi, pos, [], ts. repeat split; auto. constructor.
  - intros w1 w2 a v more W1 W2 _ IHa _ [IHe IHm]. split.
    { intros b A. rewrite <- !app_assoc. apply alnum_end_ws; [exact W1|]. apply alnum_end_char. reflexivity. }
    intros b n semi pos ts A E. rewrite <- !app_assoc in E.
    destruct (lex_ws w1 W1 _ _ _ _ _ E) as (n1 & s1 & p1 & u1 & t1 & -> & S1 & _ & E1).
    destruct n1 as [|n1]; [discriminate|]. rewrite (step_cm n1 s1 p1) in E1. apply emits_inv in E1. destruct E1 as (t2 & -> & E2).
    destruct (lex_ws w2 W2 _ _ _ _ _ E2) as (n3 & s3 & p3 & u3 & t3 & -> & _ & Q3 & E3). destruct (Q3 eq_refl) as [-> ->].
    destruct (IHa _ _ _ _ _ (IHe _ A) E3) as (n4 & s4 & p4 & u4 & t4 & -> & Ta & _ & E4).
    destruct (IHm _ _ _ _ _ A E4) as (n5 & s5 & p5 & u5 & t5 & -> & Tm & _ & E5).
    exists n5, s5, p5, (u1 ++ (TComma, p1) :: u4 ++ u5), t5. split; [cbn [app]; rewrite <- !app_assoc; cbn [app]; rewrite <- !app_assoc; reflexivity|]. split; [apply more_one; assumption|]. split; [exact I|exact E5].
Qed.
Lemma call_arg_bare e : call_arg e -> call_arg (bare e).
Proof.
  induction e as [p x|p k v|l x r IHx|p o x IHx|x p o y IHx IHy|f l args el r IHf IHargs|p x IHx|x p s IHx|t|] using gexpr_ind'; cbn [call_arg bare]; try tauto.
  destruct f; try contradiction. cbn [bare]. intros (A & B & C). split; [exact A|]. split; [destruct args; [congruence|discriminate]|]. apply fold_and in C. apply fold_and. clear -IHargs C. induction IHargs; inversion C; subst; constructor; auto.
Qed.
Lemma call_reads t e : call_form ParseExpr t -> reads ParseExpr t e -> call_value e.
Proof.
  intros C (raw & E & _ & ->). unfold ParseExpr in E. destruct (scan t) as [ts|x|x] eqn:Sc; cbn [bind] in E; try discriminate. apply scan_inv in Sc.
  destruct Sc as (pos & t' & [[<- _]|[Em _]] & _ & Sc).
  2:{ exfalso. destruct C as [f w a v more w' (c & f' & -> & Lc & _) _ _ _ _]. cbn in Em. injection Em as -> _. vm_compute in Lc. discriminate. }
  rewrite <- (app_nil_r t) in Sc at 2. destruct (proj1 (proj2 (lex_calls ParseExpr)) t C [] _ _ _ _ Sc) as (n & s' & p' & us & tl & -> & Cu & _ & El).
  assert (Et : ends_arg tl). { destruct n as [|n]; [discriminate|]. cbn in El. destruct s'; inversion El; subst; cbn; auto. }
  destruct (gp_binary (4 * List.length (us ++ tl) + 4) 1 (us ++ tl)) as [[e' r]|x|x] eqn:G; unfold ptok in *; cbn [bind] in E; try discriminate.
  destruct (proj1 (proj2 calls_parse) us Cu tl Et _ _ _ G) as [V _]. cbn [fst] in V.
  assert (e' = raw) as -> by (destruct r as [|[[] p] [|? ?]]; inversion E; reflexivity).
  destruct V as [V1 V2]. split; [apply call_arg_bare; exact V1|]. destruct raw; exact V2.
Qed.

(** ** The expressions of a parsed source are placed *)
Lemma reads_placed (P : text -> Prop) t e : reads ParseExpr t e -> within t -> Forall P (literals e) -> placed P e.
Proof.
  intros R W L. split; [exact (reads_ordered t e R)|]. split; [destruct R as (raw & _ & _ & ->); apply unplaced_bare|].
  apply reads_literals in R. rewrite Forall_forall in *. intros v I. split; [|exact (L v I)]. apply (R v I). exact W.
Qed.
Lemma reads_lacks c t e : reads ParseExpr t e -> ~ In c t -> Forall (fun v => ~ In c v) (literals e).
Proof. intros R N. apply reads_literals in R. eapply Forall_impl; [|exact R]. cbn. intros v [P _]. exact (piece_lacks c t v P N). Qed.

Definition placed_operand (o : operand) : Prop :=
  match o with
  | OType _ => True
  | OAuxInt e => placed (fun v => ~ In "]"%char v) e
  | OAux e => placed (fun v => ~ In "}"%char v) e
  | OArg v => placed_value v
  end.
Lemma values_placed :
  (forall t v, value_form ParseExpr t v -> within t -> placed_value v) /\
  (forall t ops, operands_form ParseExpr t ops -> within t -> Forall placed_operand ops) /\
  (forall t x, operand_form ParseExpr t x -> within t -> placed_operand x).
Proof.
  apply value_forms_ind.
  - intros t v [t' e C R|x Hx|] W; cbn [placed_value]; auto. split; [|exact (call_reads _ _ C R)]. apply (reads_placed _ t'); auto. apply Forall_forall. auto.
  - intros b w o opst ops ell el trl tr w' Hb Ws Ho Fo IH Fe Ft W' Wi.
    assert (L : Forall placed_operand ops).
    { apply IH. do 4 apply within_right in Wi. apply within_left in Wi. exact Wi. }
    rewrite Forall_forall in L. cbn [placed_value assemble s_auxint s_aux s_args].
    split; [|split].
    + destruct (last_in (map Some (auxints_of ops)) None) as [E|E]; [rewrite E; constructor|]. destruct (last (map Some (auxints_of ops)) None) as [e|]; [|constructor]. constructor; [|constructor].
      apply in_map_iff in E. destruct E as (x & E & I). inversion E; subst. unfold auxints_of in I. apply in_flat_map in I. destruct I as (p & I & Ip). specialize (L p I). destruct p; cbn in Ip; try tauto. destruct Ip as [<-|[]]. exact L.
    + destruct (last_in (map Some (auxs_of ops)) None) as [E|E]; [rewrite E; constructor|]. destruct (last (map Some (auxs_of ops)) None) as [e|]; [|constructor]. constructor; [|constructor].
      apply in_map_iff in E. destruct E as (x & E & I). inversion E; subst. unfold auxs_of in I. apply in_flat_map in I. destruct I as (p & I & Ip). specialize (L p I). destruct p; cbn in Ip; try tauto. destruct Ip as [<-|[]]. exact L.
    + apply fold_and. apply Forall_forall. intros v I. pose proof I as I0. unfold args_of in I. apply in_flat_map in I. destruct I as (p & I & Ip). specialize (L p I). destruct p; cbn in Ip; try tauto. destruct Ip as [<-|[]]. exact L.
  - constructor.
  - intros w t x rest xs W Fx IHx Fr IHr Wi. apply within_right in Wi. constructor; [exact (IHx (within_left _ _ Wi))|exact (IHr (within_right _ _ Wi))].
  - intros t Ne N Wi. exact I.
  - intros t e Ne N R Wi. apply (reads_placed _ t); auto; [exact (within_left _ _ (within_right _ _ Wi))|exact (reads_lacks _ _ _ R N)].
  - intros t e Ne N R Wi. apply (reads_placed _ t); auto; [exact (within_left _ _ (within_right _ _ Wi))|exact (reads_lacks _ _ _ R N)].
  - intros t v V IH Wi. exact (IH Wi).
Qed.

(** Conditions. *)
Lemma newlines_app a b : newlines_to_spaces (a ++ b) = newlines_to_spaces a ++ newlines_to_spaces b.
Proof. apply map_app. Qed.
Lemma newlines_utf8 t : utf8 t -> utf8 (newlines_to_spaces t).
Proof.
  induction 1 as [|k t K U IH]; [constructor|]. rewrite newlines_app. destruct (utf8_char_first k K) as (c & k' & -> & [[L ->]|[L F]]).
  - cbn. apply (utf8_cons [_]); [|exact IH]. destruct (ascii_dec c nl); [constructor; unfold byte_in; vm_compute; split; discriminate|exact K].
  - assert (E : newlines_to_spaces (c :: k') = c :: k').
    { assert (X : Forall (fun x => (128 <= byte_val x)%N) (c :: k')) by (constructor; assumption). clear -X. induction X as [|x l Hx X IH]; [reflexivity|]. cbn. destruct (ascii_dec x nl) as [->|]; [vm_compute in Hx; congruence|]. f_equal. exact IH. }
    rewrite E. constructor; assumption.
Qed.
Lemma newlines_none t : ~ In nl (newlines_to_spaces t).
Proof. unfold newlines_to_spaces. rewrite in_map_iff. intros (c & E & _). destruct (ascii_dec c nl); [discriminate|congruence]. Qed.
Lemma within_cond c : within c -> within (trim_space (newlines_to_spaces c)).
Proof.
  intros (a & b & U). apply newlines_utf8 in U. rewrite !newlines_app in U. destruct (trim_space_trimmed (newlines_to_spaces c)) as (x & y & E & _). rewrite E in U.
  exists (newlines_to_spaces a ++ x), (y ++ newlines_to_spaces b). rewrite <- !app_assoc in *. exact U.
Qed.
Lemma trimmed_lacks d c : ~ In d (newlines_to_spaces c) -> ~ In d (trim_space (newlines_to_spaces c)).
Proof. intros N I. apply N. destruct (trim_space_trimmed (newlines_to_spaces c)) as (x & y & E & _). rewrite E, !in_app_iff. auto. Qed.
Lemma no_cr_same t : ~ In cr t -> no_cr t = t.
Proof. intros N. induction t as [|c t IH]; [reflexivity|]. cbn [no_cr filter]. destruct (ch c cr) eqn:E; [apply ch_eq in E; subst; cbn in N; tauto|]. cbn [negb]. f_equal. apply IH. cbn in N. tauto. Qed.
Lemma cond_no_arrow c e : reads ParseExpr (trim_space (newlines_to_spaces c)) e -> (forall x y, c = x ++ str "=>" ++ y -> x = []) -> ~ In cr c ->
  Forall (fun v => ~ has_arrow v) (literals e).
Proof.
  intros R A N. pose proof (reads_ordered _ _ R) as O. apply ordered_literals in O. apply reads_literals in R. rewrite Forall_forall in *. intros v I (x & y & Ev).
  destruct (R v I) as [(m & (a & b & Em) & Hm) _]. destruct (O v I) as [k Hk].
  assert (v = m) as ->.
  { destruct Hm as [->| ->]; [reflexivity|]. apply no_cr_same. intros J. assert (In cr (newlines_to_spaces c)).
    { destruct (trim_space_trimmed (newlines_to_spaces c)) as (u & w & -> & _). rewrite Em, !in_app_iff. auto. }
    unfold newlines_to_spaces in H. apply in_map_iff in H. destruct H as (d & E & Id). destruct (ascii_dec d nl); [discriminate|]. subst. contradiction. }
  destruct (trim_space_trimmed (newlines_to_spaces c)) as (u & w & E & _). rewrite Em, Ev in E. rewrite <- !app_assoc in E. unfold newlines_to_spaces in E.
  assert (E' : map (fun c0 => if ascii_dec c0 nl then sp else c0) c = (u ++ a ++ x) ++ "="%char :: ">"%char :: y ++ b ++ w) by (rewrite <- !app_assoc; exact E). clear E.
  apply map_eq_app in E'. destruct E' as (c1 & c2 & -> & E1 & E2). apply map_cons_inv in E2. destruct E2 as (d1 & c3 & -> & D1 & E2). apply map_cons_inv in E2. destruct E2 as (d2 & c4 & -> & D2 & _).
  assert (d1 = "="%char) as -> by (destruct (ascii_dec d1 nl); [discriminate|assumption]). assert (d2 = ">"%char) as -> by (destruct (ascii_dec d2 nl); [discriminate|assumption]).
  specialize (A c1 c4 eq_refl). subst c1. cbn in E1. symmetry in E1. apply app_eq_nil in E1. destruct E1 as [_ E1]. apply app_eq_nil in E1. destruct E1 as [_ ->].
  cbn in Ev. destruct Hk as [[_ (d & t & Et & Hd)]|S].
  - rewrite Et in Ev. inversion Ev; subst. discriminate.
  - destruct k; cbn in S; try contradiction; [destruct S as (z & Ez & _)|destruct S as [(z & Ez & _)|(z & Ez & _)]]; rewrite Ez in Ev; discriminate.
Qed.
Lemma rule_placed after t r : rule_form ParseExpr after t r -> within (t ++ after) ->
  Forall (fun v => ~ has_arrow v) (flat_map literals (given (r_cond r))) \/ ~ In cr t -> placed_rule r.
Proof.
  intros [m vm ct c w1 w2 bt b w3 res vr Vm C W1 W2 B W3 Vr _] Wi A. rewrite <- !app_assoc in Wi. cbn [r_match r_cond r_result] in *.
  split; [|split]; cbn [r_match r_cond r_result].
  - exact (proj1 values_placed m vm Vm (within_left _ _ Wi)).
  - inversion C as [|w w' ct' e b' after' X1 X2 Ne Ns Na Ea Bb R]; subst; cbn [given]; constructor; [|constructor]. apply reads_cond_iff in R.
    assert (Wc : within ct').
    { apply within_right in Wi. apply within_left in Wi. do 3 apply within_right in Wi. exact Wi. }
    apply (reads_placed _ (trim_space (newlines_to_spaces ct'))); auto; [apply within_cond; exact Wc|].
    pose proof (reads_lacks nl _ _ R (trimmed_lacks nl ct' (newlines_none ct'))) as Ln.
    assert (La : Forall (fun v => ~ has_arrow v) (literals e)).
    { destruct A as [A|A]; [cbn in A; rewrite app_nil_r in A; exact A|]. apply (cond_no_arrow ct'); auto. intros I. apply A. rewrite !in_app_iff. tauto. }
    rewrite Forall_forall in *. intros v Iv. split; [exact (Ln v Iv)|exact (La v Iv)].
  - do 7 apply within_right in Wi. exact (proj1 values_placed res vr Vr (within_left _ _ Wi)).
Qed.
Lemma parsed_placed fn data f : Parse.Parse ParseExpr fn data = Ok f ->
  Forall (fun r => Forall (fun v => ~ has_arrow v) (flat_map literals (given (r_cond r)))) (f_rules f) \/ ~ In cr data -> Forall placed_rule (f_rules f).
Proof.
  intros H. apply parse_source in H. destruct H as [U Sf]. assert (W : within data) by (exists [], []; rewrite app_nil_r; exact U). clear U. destruct f as [rs]. cbn [f_rules] in *.
  induction Sf as [|w t w' rest r rs Ws Ws' R Sf IH]; intros A; [constructor|]. apply within_right in W. constructor.
  - apply (rule_placed (w' ++ rest) t); auto. destruct A as [A|A]; [left; inversion A; assumption|right]. intros I. apply A. rewrite !in_app_iff. auto.
  - apply IH; auto; [do 2 apply within_right in W; exact W|]. destruct A as [A|A]; [left; inversion A; assumption|right]. intros I. apply A. rewrite !in_app_iff. auto.
Qed.
Lemma parsed_writable fn data f : Parse.Parse ParseExpr fn data = Ok f -> Forall (fun r => Forall smooth (rule_exprs r)) (f_rules f) ->
  Forall (fun r => Forall (fun v => ~ has_arrow v) (flat_map literals (given (r_cond r)))) (f_rules f) \/ ~ In cr data -> Forall writable_rule (f_rules f).
Proof. intros H S A. pose proof (parsed_placed fn data f H A) as P. rewrite Forall_forall in *. intros r I. split; auto. Qed.
