(** Calls, variables and placeholders: the grammar rules Expr and Call. *)
From Verif Require Import Text GoAst Ast Utf8 GoExpr Peg Grammar SpecPrint SpecSyntax PegPoints PegSem SynLex SynWords.
From Coq Require Import NArith Arith Bool Lia.

(** * Reading Go expressions *)
Lemma bare_clear e : bare e = clear e.
Proof. reflexivity. Qed.
Lemma later_none a b : later a b = None <-> a = None /\ b = None.
Proof. destruct b; cbn; split; try tauto; intros; try discriminate; destruct H; discriminate. Qed.
Lemma fold_later_none {X} (f : X -> option text) l : forall a, fold_left (fun acc x => later acc (f x)) l a = None <->
  a = None /\ Forall (fun x => f x = None) l.
Proof.
  induction l as [|x l IH]; intros a; cbn [fold_left]; [split; intros; [auto|tauto]|].
  rewrite IH, later_none. split.
  - intros [[A B] C]. auto.
  - intros [A B]. inversion B; auto.
Qed.
Lemma unsupported_spec e : unsupported e = None <-> supported e.
Proof.
  induction e using gexpr_ind'; cbn [unsupported supported]; try tauto; try (split; intros; (exact I || discriminate || contradiction)).
  - rewrite later_none. tauto.
  - rewrite fold_later_none, IHe. apply and_iff_compat_l. induction H as [|x' l' Hx Hl IH]; cbn [fold_right]; [split; auto|].
    split.
    + intros F. inversion F; subst. split; [apply Hx; assumption|apply IH; assumption].
    + intros [A B]. constructor; [apply Hx; exact A|apply IH; exact B].
Qed.
Lemma reads_spec gp t e : goexpr_parse gp t = Ok e <-> reads gp t e.
Proof.
  unfold goexpr_parse, reads, bind. destruct (gp t) as [raw|m|m].
  - destruct (unsupported raw) eqn:U.
    + split; [discriminate|]. intros (raw' & E & Su & _). inversion E; subst. apply unsupported_spec in Su. congruence.
    + apply unsupported_spec in U. split; [intros H; inversion H; eauto|]. intros (raw' & E & _ & ->). inversion E; subst. reflexivity.
  - split; [discriminate|]. intros (raw' & E & _). discriminate.
  - split; [discriminate|]. intros (raw' & E & _). discriminate.
Qed.
Lemma with_goexpr_spec gp t k v : with_goexpr gp t k = AOk v <-> exists e, reads gp t e /\ v = k e.
Proof.
  unfold with_goexpr. destruct (goexpr_parse gp t) as [e|m|m] eqn:E.
  - apply reads_spec in E. split; [intros H; inversion H; eauto|]. intros (e' & R & ->). f_equal. f_equal.
    apply reads_spec in E, R. congruence.
  - split; [discriminate|]. intros (e' & R & _). apply reads_spec in R. congruence.
  - split; [discriminate|]. intros (e' & R & _). apply reads_spec in R. congruence.
Qed.

(** Not a word character. *)
Ltac notword := let H := fresh in intros [H|[H|[H|H]]]; discriminate.
(** [not_next P (c :: t)] for a concrete c. *)
Ltac nextchar := let c := fresh in let t := fresh in let E := fresh in intros c t E; inversion E; subst; clear E;
  first [ notword | discriminate | intros ?; discriminate ].

Section Exprs.
  Variable gp : text -> res gexpr.
  Notation RUN := (run_action gp).
  Notation S := (sem RUN the_grammar).
  Notation SQ := (sem_seq RUN the_grammar).
  Notation SR := (sem_rep RUN the_grammar).
  Notation Expr := (PRef (str "Expr")).
  Notation Call := (PRef (str "Call")).

  Definition g_more : pexp := PSeq [g_ws0; lit "," ""","""; g_ws0; Expr; g_ws0].
  (** What follows the expression: not a word character, not "(". *)
  Lemma ws_end w r : ws w -> op_end r -> op_end (w ++ r).
  Proof.
    intros W [A B]. split; apply ws_not_next; auto.
    - apply blank_not_word.
    - intros c [[-> | [-> | [-> | ->]]] | ->]; discriminate.
  Qed.
  Lemma more_end m w r : more_args gp m -> ws w -> op_end (m ++ w ++ str ")" ++ r).
  Proof.
    intros M W. destruct M as [|w1 w2 a v more W1 W2 E M].
    - apply (ws_end w); [exact W|]. split; nextchar.
    - rewrite <- !app_assoc. apply (ws_end w1); [exact W1|]. split; nextchar.
  Qed.
  Lemma expr_first t v : expr_form gp t v -> exists c t', t = c :: t' /\ (lower c \/ c = "_"%char).
  Proof.
    intros [t' e C _|x (c & t' & -> & L & _)|].
    - destruct C as [f w a v0 more w' (c & t0 & -> & L & _) _ _ _ _]. cbn. eauto.
    - eauto.
    - exists "_"%char, []. auto.
  Qed.
  Lemma lower_no_skip c t : lower c \/ c = "_"%char -> no_skip (c :: t).
  Proof.
    intros [L| ->]; apply no_skip_char; try discriminate; try (intros [H|[H|[H|H]]]; subst; discriminate).
    intros ->. discriminate.
  Qed.
  Lemma expr_no_skip t v r : expr_form gp t v -> no_skip (t ++ r).
  Proof. intros E. destruct (expr_first t v E) as (c & t' & -> & L). apply lower_no_skip. exact L. Qed.

  (** Attempts that fail at once. *)
  Lemma call_bad_first t en : not_next lower t -> S Call en t Fail.
  Proof.
    intros N. eapply sem_ref_fail; [reflexivity|]. apply sem_action_fail. apply sem_sequence. apply seq_fail. apply lower_bad. exact N.
  Qed.
  Lemma call_bad_paren x r en : ident x -> op_end r -> S Call en (x ++ r) Fail.
  Proof.
    intros Hx [A B]. eapply sem_ref_fail; [reflexivity|]. apply sem_action_fail. apply sem_sequence.
    apply ident_ok; [exact Hx|exact A|]. intros v1 v2. apply seq_fail. apply lit_bad1. exact B.
  Qed.
  Lemma var_ok x r en : ident x -> not_next word_char r -> S (PAction onExpr3 (PSeq g_ident)) en (x ++ r) (Good (VValue (Var x)) en r).
  Proof.
    intros Hx N. destruct Hx as (c & t & -> & L & F). eapply sem_action.
    - apply sem_sequence. eapply seq_cons; [apply lower_ok; exact L|]. eapply seq_cons; [apply words_ok; assumption|]. apply seq_nil.
    - change (RUN onExpr3 (consumed ((c :: t) ++ r) r) en = AOk (VValue (Var (c :: t)))). rewrite consumed_app. reflexivity.
  Qed.
  Lemma var_bad t en : not_next lower t -> S (PAction onExpr3 (PSeq g_ident)) en t Fail.
  Proof. intros N. apply sem_action_fail. apply sem_sequence. apply seq_fail. apply lower_bad. exact N. Qed.
  Lemma hole_ok r en : not_next (eq "_"%char) r -> S (PAction onExpr8 (PSeq [lit "_" """_"""; PNot (lit "_" """_""")])) en (str "_" ++ r)
    (Good (VValue (Var (str "_"))) en r).
  Proof.
    intros N. eapply sem_action; [|reflexivity]. apply sem_sequence. eapply seq_cons; [apply lit_ok|].
    eapply seq_cons; [apply sem_not_fail; apply lit_bad1; exact N|]. apply seq_nil.
  Qed.
  (** A variable or placeholder where no call starts. *)
  Lemma expr_var_ok x r en : ident x -> not_next word_char r -> S Call [] (x ++ r) Fail ->
    S Expr en (x ++ r) (Good (VValue (Var x)) en r).
  Proof.
    intros Hx N C. eapply sem_ref; [reflexivity|]. apply sem_choice. apply alts_fail; [exact C|].
    eapply alts_good. apply var_ok; assumption.
  Qed.
  Lemma expr_hole_ok r en : not_next (eq "_"%char) r -> S Expr en (str "_" ++ r) (Good (VValue (Var (str "_"))) en r).
  Proof.
    intros N. eapply sem_ref; [reflexivity|]. apply sem_choice. apply alts_fail; [apply call_bad_first; nextchar|].
    apply alts_fail; [apply var_bad; nextchar|]. eapply alts_good. apply hole_ok. exact N.
  Qed.
  Lemma expr_bad t en : not_next lower t -> not_next (eq "_"%char) t -> S Expr en t Fail.
  Proof.
    intros L N. eapply sem_ref_fail; [reflexivity|]. apply sem_choice. apply alts_fail; [apply call_bad_first; exact L|].
    apply alts_fail; [apply var_bad; exact L|]. apply alts_fail; [|constructor].
    apply sem_action_fail. apply sem_sequence. apply seq_fail. apply lit_bad1. exact N.
  Qed.

  (** ** Written forms are matched *)
  Lemma exprs_complete :
    (forall t v, expr_form gp t v -> forall r en, op_end r -> S Expr en (t ++ r) (Good (VValue v) en r)) /\
    (forall t, call_form gp t -> forall e, reads gp t e -> forall r en, S Call en (t ++ r) (Good (VValue (EVal e)) en r)) /\
    (forall m, more_args gp m -> forall w' r, ws w' -> exists w0 m1, m ++ w' ++ str ")" ++ r = w0 ++ m1 /\ ws w0 /\ no_skip m1 /\
       forall p, ws p -> exists vs w'', ws w'' /\ SR g_more (p ++ m1) vs (w'' ++ str ")" ++ r)).
  Proof.
    apply expr_forms_ind.
    - intros t e C IH R r en E. eapply sem_ref; [reflexivity|]. apply sem_choice. eapply alts_good. apply IH. exact R.
    - intros x Hx r en E. apply expr_var_ok; [exact Hx|apply E|]. apply call_bad_paren; assumption.
    - intros r en [A _]. apply expr_hole_ok. intros c t' -> <-. apply (A _ t' eq_refl). left. reflexivity.
    - intros f w a v more w' Hf W Ea IHa M IHm W' e R r en.
      destruct (IHm w' r W') as (w0 & m1 & E1 & W0 & N1 & K). destruct (K w0 W0) as (vs & w'' & W'' & Rep).
      assert (NS : no_skip (a ++ more ++ w' ++ str ")" ++ r)) by (eapply expr_no_skip; eauto).
      destruct (ws0_ok gp w _ [] W NS) as [v1 G1].
      assert (NS2 : no_skip (str ")" ++ r)) by (apply no_skip_char; [intros [H|[H|[H|H]]]; discriminate|discriminate]).
      destruct (ws0_ok gp w'' (str ")" ++ r) [] W'' NS2) as [v2 G2].
      destruct (ident_seq gp f (str "(" ++ w ++ a ++ more ++ w' ++ str ")" ++ r) Hf) as (u1 & u2 & Id); [nextchar|].
      eapply sem_ref; [reflexivity|]. rewrite <- !app_assoc. eapply sem_action.
      + apply sem_sequence. apply Id.
        eapply seq_cons; [apply lit_ok|]. eapply seq_cons; [exact G1|].
        eapply seq_cons; [apply IHa; apply more_end; assumption|].
        eapply seq_cons; [apply sem_star; rewrite E1; exact Rep|].
        eapply seq_cons; [exact G2|]. eapply seq_cons; [apply lit_ok|]. apply seq_nil.
      + cbn [run_action]. apply with_goexpr_spec. exists e. split; [|reflexivity].
        replace (f ++ str "(" ++ w ++ a ++ more ++ w' ++ str ")" ++ r) with ((f ++ str "(" ++ w ++ a ++ more ++ w' ++ str ")") ++ r)
          by (rewrite <- !app_assoc; reflexivity).
        rewrite consumed_app. exact R.
    - intros w' r W'. exists w', (str ")" ++ r). split; [reflexivity|]. split; [exact W'|].
      assert (NS : no_skip (str ")" ++ r)) by (apply no_skip_char; [intros [H|[H|[H|H]]]; discriminate|discriminate]).
      split; [exact NS|]. intros p P. exists [], p. split; [exact P|]. destruct (ws0_ok gp p (str ")" ++ r) [] P NS) as [v G].
      apply rep_nil. apply sem_sequence. eapply seq_cons; [exact G|]. apply seq_fail. apply lit_bad1. nextchar.
    - intros w1 w2 a v more W1 W2 Ea IHa M IHm w' r W'.
      destruct (IHm w' r W') as (w0 & m1 & E1 & W0 & N1 & K). destruct (K [] ws_nil) as (vs & w'' & W'' & Rep).
      exists w1, (str "," ++ w2 ++ a ++ more ++ w' ++ str ")" ++ r). split; [rewrite <- !app_assoc; reflexivity|]. split; [exact W1|].
      assert (NS : no_skip (str "," ++ w2 ++ a ++ more ++ w' ++ str ")" ++ r)) by (apply no_skip_char; [intros [H|[H|[H|H]]]; discriminate|discriminate]).
      split; [exact NS|]. intros p P. destruct (ws0_ok gp p _ [] P NS) as [v1 G1].
      assert (NS2 : no_skip (a ++ more ++ w' ++ str ")" ++ r)) by (eapply expr_no_skip; eauto).
      destruct (ws0_ok gp w2 _ [] W2 NS2) as [v2 G2].
      destruct (ws0_ok gp w0 m1 [] W0 N1) as [v3 G3].
      eexists (_ :: vs), w''. split; [exact W''|]. eapply rep_cons; [|exact Rep].
      apply sem_sequence. eapply seq_cons; [exact G1|]. eapply seq_cons; [apply lit_ok|]. eapply seq_cons; [exact G2|].
      eapply seq_cons; [apply IHa; apply more_end; assumption|]. rewrite E1. eapply seq_cons; [exact G3|]. apply seq_nil.
  Qed.

  (** ** Matches are written forms *)
  Definition expr_end (k r : text) : Prop :=
    (ident k -> not_next word_char r /\ S Call [] (k ++ r) Fail) /\ (k = str "_" -> not_next (eq "_"%char) r).

  Lemma call_not_ident t : call_form gp t -> ~ ident t.
  Proof.
    intros [f w a v more w' _ _ _ _ _] (c & t' & E & L & F). 
    assert (I : In "("%char (f ++ str "(" ++ w ++ a ++ more ++ w' ++ str ")")) by (apply in_or_app; right; left; reflexivity).
    rewrite E in I. destruct I as [-> |I]; [discriminate|]. rewrite Forall_forall in F. specialize (F _ I). revert F. notword.
  Qed.
  Lemma call_not_hole t : call_form gp t -> t <> str "_".
  Proof.
    intros [f w a v more w' (c & t' & -> & L & _) _ _ _ _] E. inversion E; subst. discriminate.
  Qed.
  Lemma suffix_len e en t v en' r : S e en t (Good v en' r) -> (List.length r <= List.length t)%nat.
  Proof. intros H. apply (proj1 (sem_suffix _ _)) in H. destruct H as [k ->]. rewrite app_length. lia. Qed.

  Lemma more_ws w m : ws w -> more_args gp m -> m <> [] -> more_args gp (w ++ m).
  Proof.
    intros W M Ne. destruct M as [|w1 w2 a v more W1 W2 E M]; [contradiction|]. rewrite app_assoc. econstructor; eauto. apply ws_app; assumption.
  Qed.
  Lemma more_sound n vs : (forall t v en en' r, (List.length t < n)%nat -> S Expr en t (Good v en' r) ->
      exists k u, t = k ++ r /\ expr_form gp k u /\ v = VValue u /\ en' = en /\ expr_end k r) ->
    forall t r, (List.length t < n)%nat -> SR g_more t vs r -> exists m w, t = m ++ w ++ r /\ more_args gp m /\ ws w.
  Proof.
    intros IH. induction vs as [|v vs IHv]; intros t r L H; inversion H; subst.
    - exists [], []. repeat split; constructor.
    - match goal with G : S g_more _ _ _ |- _ => rename G into M end. unfold g_more in M. apply sequence_inv in M.
      apply seq_inv in M. destruct M as (v1 & en1 & r1 & M1 & M). apply seq_inv in M. destruct M as (v2 & en2 & r2 & M2 & M).
      apply seq_inv in M. destruct M as (v3 & en3 & r3 & M3 & M). apply seq_inv in M. destruct M as (v4 & en4 & r4 & M4 & M).
      apply seq_inv in M. destruct M as (v5 & en5 & r5 & M5 & M). apply seq_end in M. destruct M as (-> & -> & ->).
      apply ws0_inv in M1. destruct M1 as (w1 & -> & W1 & _ & ->). apply lit_inv in M2. destruct M2 as [-> ->].
      apply ws0_inv in M3. destruct M3 as (w2 & -> & W2 & _ & ->). rewrite !app_length in L.
      apply IH in M4; [|lia]. destruct M4 as (a & u & -> & Ea & _ & -> & _).
      apply ws0_inv in M5. destruct M5 as (w3 & -> & W3 & _ & ->).
      match goal with G : SR _ _ vs _ |- _ => apply IHv in G; [|rewrite !app_length in L; lia]; destruct G as (m & w & -> & Mm & Ww) end.
      destruct m as [|c m].
      + exists (w1 ++ str "," ++ w2 ++ a ++ []), (w3 ++ w). rewrite app_nil_r, <- !app_assoc. split; [reflexivity|].
        split; [|apply ws_app; assumption]. rewrite <- (app_nil_r a). eapply more_cons; eauto.
      + exists (w1 ++ str "," ++ w2 ++ a ++ w3 ++ c :: m), w. rewrite <- !app_assoc. split; [reflexivity|].
        split; [|exact Ww]. econstructor; eauto. apply more_ws; auto. discriminate.
  Qed.
  Lemma exprs_sound n :
    (forall t v en en' r, (List.length t < n)%nat -> S Expr en t (Good v en' r) ->
      exists k u, t = k ++ r /\ expr_form gp k u /\ v = VValue u /\ en' = en /\ expr_end k r).
  Proof.
    induction n as [|n IH]; [intros; lia|]. intros t v en en' r L H.
    inversion H as [| | | | | | | | | | | | |? ? ? ? ? ? ? Gr B| | | | | | |]; subst. cbn in Gr. inversion Gr; subst b. clear Gr.
    inversion B as [| |? ? ? ? C| | | | | | | | | | | | | | | | | |]; subst.
    inversion C as [|? ? ? ? ? ? ? D|? ? ? ? ? D E]; subst.
    - inversion D as [| | | | | | | | | | | | |? ? ? ? ? ? ? Gr F| | | | | | |]; subst. cbn in Gr. inversion Gr; subst b. clear Gr.
      inversion F as [? ? ? ? ? ? ? ? A R| | | | | | | | | | | | | | | | | | | |]; subst. apply sequence_inv in A.
      apply ident_inv in A. destruct A as (f & t1 & u1 & u2 & -> & Hf & _ & M).
      apply seq_inv in M. destruct M as (v1 & en1 & r1 & M1 & M). apply seq_inv in M. destruct M as (v2 & en2 & r2 & M2 & M).
      apply seq_inv in M. destruct M as (v3 & en3 & r3 & M3 & M). apply seq_inv in M. destruct M as (v4 & en4 & r4 & M4 & M).
      apply seq_inv in M. destruct M as (v5 & en5 & r5 & M5 & M). apply seq_inv in M. destruct M as (v6 & en6 & r6 & M6 & M).
      apply seq_end in M. destruct M as (-> & -> & ->).
      apply lit_inv in M1. destruct M1 as [-> ->]. apply ws0_inv in M2. destruct M2 as (w & -> & W & _ & ->).
      assert (Lf : (0 < List.length f)%nat) by (destruct Hf as (c & t' & -> & _); cbn; lia).
      rewrite !app_length in L. cbn [List.length str list_ascii_of_string] in L.
      apply IH in M3; [|lia]. destruct M3 as (a & u & -> & Ea & _ & -> & _). rewrite app_length in L.
      inversion M4; subst. match goal with G : SR _ _ _ _ |- _ => apply (more_sound n) in G; [|exact IH|lia]; destruct G as (m & w1 & -> & Mm & W1) end.
      apply ws0_inv in M5. destruct M5 as (w2 & -> & W2 & _ & ->). apply lit_inv in M6. destruct M6 as [-> ->].
      cbn [run_action] in R. apply with_goexpr_spec in R. destruct R as (e & R & ->).
      set (k := f ++ str "(" ++ w ++ a ++ m ++ (w1 ++ w2) ++ str ")").
      assert (Ek : f ++ str "(" ++ w ++ a ++ m ++ w1 ++ w2 ++ str ")" ++ r6 = k ++ r6) by (unfold k; rewrite <- !app_assoc; reflexivity).
      assert (CF : call_form gp k) by (unfold k; econstructor; eauto; apply ws_app; assumption).
      exists k, (EVal e). split; [exact Ek|]. rewrite Ek, consumed_app in R. split; [constructor; assumption|]. split; [reflexivity|]. split; [reflexivity|].
      split; intros X; [destruct (call_not_ident k CF X)|destruct (call_not_hole k CF X)].
    - inversion E as [|? ? ? ? ? ? ? D'|? ? ? ? ? D' E']; subst.
      + inversion D' as [? ? ? ? ? ? ? ? A R| | | | | | | | | | | | | | | | | | | |]; subst. apply sequence_inv in A.
        rewrite <- (app_nil_r g_ident) in A. apply ident_inv in A. destruct A as (x & t1 & u1 & u2 & -> & Hx & N & M).
        apply seq_end in M. destruct M as (-> & -> & ->). rewrite consumed_app in R. cbn in R. inversion R; subst.
        exists x, (Var x). split; [reflexivity|]. split; [constructor; exact Hx|]. split; [reflexivity|]. split; [reflexivity|].
        split; [intros _; split; assumption|]. intros ->. destruct Hx as (c & t' & E1 & Lc & _). inversion E1; subst. discriminate.
      + inversion E' as [|? ? ? ? ? ? ? D2|? ? ? ? ? _ E2]; subst; [|inversion E2].
        inversion D2 as [? ? ? ? ? ? ? ? A R| | | | | | | | | | | | | | | | | | | |]; subst. apply sequence_inv in A.
        apply seq_inv in A. destruct A as (v1 & en1 & r1 & M1 & M). apply seq_inv in M. destruct M as (v2 & en2 & r2 & M2 & M).
        apply seq_end in M. destruct M as (-> & -> & ->). apply lit_inv in M1. destruct M1 as [-> ->].
        inversion M2 as [| | | | | | |? ? ? N| | | | | | | | | | | | |]; subst. cbn in R. inversion R; subst.
        exists (str "_"), (Var (str "_")). split; [reflexivity|]. split; [apply expr_hole|]. split; [reflexivity|]. split; [reflexivity|].
        split; [intros (c & t' & E1 & Lc & _); inversion E1; subst; discriminate|].
        intros _ c t' -> <-. apply (lit_bad_inv gp _ _ _ _ N t'). reflexivity.
  Qed.
End Exprs.
