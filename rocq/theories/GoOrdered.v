(** What the reference Go parser returns is ordered. *)
From Verif Require Import Text GoAst GoParser SpecPrint SpecSyntax SpecGo GoFuel GoTree GoLex GoText GoPieces.
From Coq Require Import NArith Arith Bool Lia.

Definition allgood (ts : list ptok) : Prop := Forall (fun t => scanned (fst t)) ts.
Definition yields {A} (x : res A) (P : A -> Prop) : Prop := forall a, x = Ok a -> P a.
Lemma yields_bind {A B} (x : res A) (k : A -> res B) P Q : yields x P -> (forall a, P a -> yields (k a) Q) -> yields (bind x k) Q.
Proof. intros H K b E. destruct x as [a|e|m]; cbn in E; try discriminate. exact (K a (H a eq_refl) b E). Qed.
Lemma yields_ok {A} (a : A) (P : A -> Prop) : P a -> yields (Ok a) P. Proof. intros H b E. inversion E; subst. exact H. Qed.
Lemma yields_err {A} (P : A -> Prop) : yields syntax_error P. Proof. discriminate. Qed.
Lemma yields_weak {A} (x : res A) (P Q : A -> Prop) : yields x P -> (forall a, P a -> Q a) -> yields x Q.
Proof. intros H K a E. auto. Qed.
Lemma unary_prefix o : unary_op o = true -> prefix_op o.
Proof. unfold prefix_op. destruct o; cbn; intros; try discriminate; tauto. Qed.
Lemma follow_top k ts : 5 <= k -> follow k ts.
Proof. intros L. destruct ts as [|[[] p] ts]; cbn; auto. destruct o; cbn; lia. Qed.

Definition out_ok (P : gexpr -> list ptok -> Prop) (r : gexpr * list ptok) : Prop := ordered (fst r) /\ allgood (snd r) /\ P (fst r) (snd r).
Lemma out_ordered n :
  (forall prec ts, 1 <= prec <= 6 -> allgood ts -> yields (gp_binary n prec ts) (out_ok (fun e r => prec <= level e /\ follow (prec - 1) r))) /\
  (forall prec x ts, 1 <= prec <= 6 -> ordered x -> prec <= level x -> follow (level x) ts -> allgood ts ->
     yields (gp_binloop n prec x ts) (out_ok (fun e r => prec <= level e /\ follow (prec - 1) r))) /\
  (forall ts, allgood ts -> yields (gp_unary n ts) (out_ok (fun e _ => 6 <= level e))) /\
  (forall x ts, ordered x -> level x = 7 -> allgood ts -> yields (gp_primary n x ts) (out_ok (fun e _ => level e = 7))) /\
  (forall ts, allgood ts -> yields (gp_args n ts) (fun r => Forall ordered (fst (fst (fst r))) /\ allgood (snd r))).
Proof.
  unfold out_ok. induction n as [|n (Hb & Hl & Hu & Hp & Ha)]; [repeat split; intros; discriminate|]. split; [|split; [|split; [|split]]].
  - intros prec ts L G. cbn [gp_binary]. eapply yields_bind; [apply Hu; exact G|]. intros [x t] (O & G' & Lx). cbn [fst snd] in *. apply Hl; auto; [lia|apply follow_top; lia].
  - intros prec x ts L O Lx F G. cbn [gp_binloop].
    assert (Stop : (match ts with (TOp o, _) :: _ => (0 <? tok_prec o) && (prec <=? tok_prec o) = false | _ => True end) ->
      yields (Ok (x, ts)) (fun r => ordered (fst r) /\ allgood (snd r) /\ prec <= level (fst r) /\ follow (prec - 1) (snd r))).
    { intros H. apply yields_ok. cbn [fst snd]. split; [exact O|]. split; [exact G|]. split; [exact Lx|]. destruct ts as [|[[] p] ts]; cbn; auto. apply andb_false_iff in H.
      destruct H as [H|H]; [apply Nat.ltb_ge in H; lia|apply Nat.leb_gt in H; lia]. }
    destruct ts as [|[[] p] ts]; try (apply Stop; exact I). destruct ((0 <? tok_prec o) && (prec <=? tok_prec o)) eqn:C; [|apply Stop; reflexivity]. clear Stop.
    apply andb_true_iff in C. destruct C as [C1 C2]. apply Nat.ltb_lt in C1. apply Nat.leb_le in C2. cbn [follow] in F. inversion G; subst.
    assert (L5 : tok_prec o <= 5) by (destruct o; cbn; lia).
    eapply yields_bind; [apply Hb; [lia|assumption]|]. intros [y t] (Oy & Gy & Ly & Fy). cbn [fst snd] in *. replace (S (tok_prec o) - 1) with (tok_prec o) in Fy by lia.
    apply Hl; auto. cbn. unfold infix. repeat split; auto; lia.
  - intros ts G. cbn [gp_unary]. destruct ts as [|[[] p] ts]; try exact (yields_err _); inversion G as [|? ? Gt Gts]; subst; cbn [fst scanned] in Gt.
    + intros [e r] E. destruct (fun O => Hp (GIdent p name) ts O eq_refl Gts (e, r) E) as (A & B & C); [exact Gt|]. repeat split; auto. lia.
    + intros [e r] E. destruct (fun O => Hp (GBasicLit p k v) ts O eq_refl Gts (e, r) E) as (A & B & C); [exact Gt|]. repeat split; auto. lia.
    + destruct (unary_op o) eqn:U.
      * eapply yields_bind; [apply Hu; exact Gts|]. intros [x t] (Ox & Gx & Lx). apply yields_ok. cbn [fst snd] in *. repeat split; auto. apply unary_prefix. exact U.
      * destruct o; try exact (yields_err _). eapply yields_bind; [apply Hu; exact Gts|]. intros [x t] (Ox & Gx & Lx). apply yields_ok. cbn [fst snd] in *. repeat split; auto.
    + eapply yields_bind; [apply Hb; [lia|exact Gts]|]. intros [x t] (Ox & Gx & _). cbn [fst snd] in *. destruct t as [|[[] q] t]; try exact (yields_err _). inversion Gx; subst.
      intros [e r] E. destruct (fun O G => Hp (GParen p x q) t O eq_refl G (e, r) E) as (A & B & C); [exact Ox|assumption|]. repeat split; auto. lia.
  - intros x ts O L G. cbn [gp_primary]. destruct ts as [|[[] p] ts]; try (apply yields_ok; cbn; auto; fail); inversion G as [|? ? Gt Gts]; subst.
    + eapply yields_bind; [apply Ha; exact Gts|]. intros [[[ar el] q] t] (Oa & Gr). cbn [fst snd] in *. apply Hp; auto. cbn. split; [exact L|]. split; [exact O|]. apply fold_and. exact Oa.
    + destruct ts as [|[[] q] ts]; try exact (yields_err _). inversion Gts as [|? ? Gn Gts']; subst. apply Hp; auto. cbn. split; [exact L|]. split; [exact Gn|exact O].
  - intros ts G.
    assert (Gen : yields (bind (gp_binary n 1 ts) (fun at_ => let '(a, ts') := at_ in
          match ts' with
          | (TEllipsis, e) :: (TRParen, q) :: ts'' => Ok ([a], e, q, ts'')
          | (TEllipsis, e) :: (TComma, _) :: (TRParen, q) :: ts'' => Ok ([a], e, q, ts'')
          | (TComma, _) :: ts'' => bind (gp_args n ts'') (fun r => let '(args, el, q, ts3) := r in Ok (a :: args, el, q, ts3))
          | (TRParen, q) :: ts'' => Ok ([a], NoPos, q, ts'')
          | _ => syntax_error
          end)) (fun r => Forall ordered (fst (fst (fst r))) /\ allgood (snd r))).
    { eapply yields_bind; [apply Hb; [lia|exact G]|]. intros [a t] (Oa & Gt & _). cbn [fst snd] in *. destruct t as [|[[] q] t]; try exact (yields_err _); inversion Gt; subst.
      - apply yields_ok. cbn [fst snd]. auto.
      - eapply yields_bind; [apply Ha; assumption|]. intros [[[ar el] q'] t'] (Oar & Gr). apply yields_ok. cbn [fst snd] in *. auto.
      - destruct t as [|[[] q1] t]; try exact (yields_err _).
        + match goal with H : Forall _ (_ :: t) |- _ => inversion H; subst end. apply yields_ok. cbn [fst snd]. auto.
        + destruct t as [|[[] q2] t]; try exact (yields_err _). match goal with H : Forall _ (_ :: _ :: t) |- _ => inversion H as [|? ? ? H']; subst; inversion H'; subst end. apply yields_ok. cbn [fst snd]. auto. }
    cbn [gp_args]. destruct ts as [|[[] p] ts]; try exact Gen. apply yields_ok. cbn [fst snd]. split; [constructor|]. inversion G; assumption.
Qed.

Lemma parse_ordered s e : ParseExpr s = Ok e -> ordered e.
Proof.
  unfold ParseExpr. destruct (scan s) as [ts|x|x] eqn:Sc; cbn [bind]; try discriminate. apply scan_good in Sc.
  destruct (gp_binary (4 * List.length ts + 4) 1 ts) as [[e' r]|x|x] eqn:G; cbn [bind]; try discriminate.
  pose proof (proj1 (out_ordered _) 1 ts ltac:(lia) Sc _ G) as (O & _). cbn [fst] in O. destruct r as [|[[] p] [|? ?]]; intros E; inversion E; subst; exact O.
Qed.

(** Positions do not matter. *)
Lemma level_bare e : level (bare e) = level e. Proof. destruct e; reflexivity. Qed.
Lemma first_bare e : first_op (bare e) = first_op e. Proof. induction e; cbn; auto. Qed.
Lemma merges_bare o e : merges o (bare e) <-> merges o e. Proof. unfold merges. rewrite first_bare. tauto. Qed.
Lemma number_bare e : number (bare e) <-> number e. Proof. destruct e; cbn; tauto. Qed.
Lemma ordered_bare e : ordered (bare e) <-> ordered e.
Proof.
  induction e as [p x|p k v|l x r IHx|p o x IHx|x p o y IHx IHy|f l args el r IHf IHargs|p x IHx|x p s IHx|t|] using gexpr_ind'; cbn [bare ordered]; rewrite ?level_bare; try tauto.
  rewrite !fold_and, IHf. assert (A : Forall ordered (map bare args) <-> Forall ordered args); [|tauto].
  induction IHargs as [|a args Ha F IH]; cbn; [split; constructor|]. split; intros H; inversion H; subst; constructor; tauto.
Qed.
Lemma smooth_bare e : smooth (bare e) <-> smooth e.
Proof.
  induction e as [p x|p k v|l x r IHx|p o x IHx|x p o y IHx IHy|f l args el r IHf IHargs|p x IHx|x p s IHx|t|] using gexpr_ind'; cbn [bare smooth]; rewrite ?merges_bare, ?number_bare; try tauto.
  rewrite !fold_and, IHf. assert (A : Forall smooth (map bare args) <-> Forall smooth args); [|tauto].
  induction IHargs as [|a args Ha F IH]; cbn; [split; constructor|]. split; intros H; inversion H; subst; constructor; tauto.
Qed.
Lemma bare_bare e : bare (bare e) = bare e.
Proof.
  induction e as [p x|p k v|l x r IHx|p o x IHx|x p o y IHx IHy|f l args el r IHf IHargs|p x IHx|x p s IHx|t|] using gexpr_ind'; cbn [bare]; try congruence.
  f_equal; [exact IHf|]. rewrite map_map. clear -IHargs. induction IHargs; cbn; congruence.
Qed.
Lemma reads_ordered s e : reads ParseExpr s e -> ordered e.
Proof. intros (raw & E & _ & ->). apply ordered_bare. eapply parse_ordered; eauto. Qed.
Lemma reads_bare s e : reads ParseExpr s e -> bare e = e.
Proof. intros (raw & _ & _ & ->). apply bare_bare. Qed.
Lemma reads_again s e : reads ParseExpr s e -> smooth e -> reads ParseExpr (go_text e) e.
Proof. intros R Sm. pose proof (go_text_reads e (reads_ordered s e R) Sm) as X. rewrite (reads_bare s e R) in X. exact X. Qed.
