(** The printed text of a smooth ordered tree is scanned as the tree's tokens. *)
From Verif Require Import Text GoAst GoParser SpecPrint SpecSyntax SpecGo SpecWords SpecBack GoFuel GoTree GoLex GoWords.
From Verif Require GoChars.
From Coq Require Import NArith Arith Bool Lia.
Open Scope nat_scope.
Open Scope list_scope.

Definition op_pcs (o : gotok) : list piece := if spaced o then [Gap; Tok (TOp o) (tok_string o); Gap] else [Tok (TOp o) (tok_string o)].
Fixpoint comma_pcs (l : list (list piece)) : list piece :=
  match l with
  | [] => []
  | [t] => t
  | t :: l' => t ++ Tok TComma (str ",") :: Gap :: comma_pcs l'
  end.
Fixpoint pcs (e : gexpr) : list piece :=
  match e with
  | GIdent _ x => [Tok (TIdent x) x]
  | GBasicLit _ k v => [Tok (TLit k v) v]
  | GParen _ x _ => Tok TLParen (str "(") :: pcs x ++ [Tok TRParen (str ")")]
  | GUnary _ o x => Tok (TOp o) (tok_string o) :: pcs x
  | GBinary x _ o y => pcs x ++ op_pcs o ++ pcs y
  | GCall f _ args _ _ => pcs f ++ Tok TLParen (str "(") :: comma_pcs (map pcs args) ++ [Tok TRParen (str ")")]
  | GStar _ x => Tok (TOp MUL) (str "*") :: pcs x
  | GSelector x _ s => pcs x ++ [Tok TDot (str "."); Tok (TIdent s) s]
  | GOther _ | GNil => []
  end.

Lemma text_of_cons p ps : text_of (p :: ps) = piece_text p ++ text_of ps. Proof. reflexivity. Qed.
Lemma tokens_of_tok k w ps : tokens_of (Tok k w :: ps) = k :: tokens_of ps. Proof. reflexivity. Qed.
Lemma op_pcs_text o : text_of (op_pcs o) = op_text o.
Proof. unfold op_pcs, op_text. destruct (spaced o); cbn; rewrite ?app_nil_r; reflexivity. Qed.
Lemma op_pcs_toks o : tokens_of (op_pcs o) = [TOp o].
Proof. unfold op_pcs. destruct (spaced o); reflexivity. Qed.
Lemma pcs_text e : text_of (pcs e) = go_text e.
Proof.
  induction e as [p x|p k v|l x r IHx|p o x IHx|x p o y IHx IHy|f l args el r IHf IHargs|p x IHx|x p s IHx|t|] using gexpr_ind'; cbn [pcs go_text]; try reflexivity.
  - cbn. apply app_nil_r.
  - cbn. apply app_nil_r.
  - rewrite text_of_cons, text_of_app, IHx. reflexivity.
  - rewrite text_of_cons, IHx. reflexivity.
  - rewrite !text_of_app, op_pcs_text, IHx, IHy. reflexivity.
  - rewrite text_of_app, text_of_cons, text_of_app, IHf. f_equal. cbn [piece_text]. f_equal. f_equal. clear -IHargs.
    induction IHargs as [|a args Ha F IH]; [reflexivity|]. destruct args as [|b args]; [exact Ha|].
    change (comma_pcs (map pcs (a :: b :: args))) with (pcs a ++ Tok TComma (str ",") :: Gap :: comma_pcs (map pcs (b :: args))). rewrite text_of_app, Ha.
    change (sep_by (str ", ") (map go_text (a :: b :: args))) with (go_text a ++ str ", " ++ sep_by (str ", ") (map go_text (b :: args))). rewrite <- IH. reflexivity.
  - rewrite text_of_cons, IHx. reflexivity.
  - rewrite text_of_app, IHx. cbn. rewrite app_nil_r. reflexivity.
Qed.
Lemma pcs_toks e : tokens_of (pcs e) = toks e.
Proof.
  induction e as [p x|p k v|l x r IHx|p o x IHx|x p o y IHx IHy|f l args el r IHf IHargs|p x IHx|x p s IHx|t|] using gexpr_ind'; cbn [pcs toks]; try reflexivity.
  - rewrite tokens_of_tok, tokens_of_app, IHx. reflexivity.
  - rewrite tokens_of_tok, IHx. reflexivity.
  - rewrite !tokens_of_app, op_pcs_toks, IHx, IHy. reflexivity.
  - rewrite tokens_of_app, tokens_of_tok, tokens_of_app, IHf. f_equal. f_equal. f_equal. clear -IHargs.
    induction IHargs as [|a args Ha F IH]; [reflexivity|]. destruct args as [|b args]; [exact Ha|].
    change (comma_pcs (map pcs (a :: b :: args))) with (pcs a ++ Tok TComma (str ",") :: Gap :: comma_pcs (map pcs (b :: args))). rewrite tokens_of_app, Ha.
    change (comma (map toks (a :: b :: args))) with (toks a ++ TComma :: comma (map toks (b :: args))). rewrite <- IH. reflexivity.
  - rewrite tokens_of_tok, IHx. reflexivity.
  - rewrite tokens_of_app, IHx. reflexivity.
Qed.
Lemma final_app a b : forall s, final s (a ++ b) = final (final s a) b.
Proof. induction a as [|[k w|] a IH]; intros s; cbn; auto. Qed.
Lemma pcs_final e : ordered e -> forall s, final s (pcs e) = true.
Proof.
  induction e as [p x|p k v|l x r IHx|p o x IHx|x p o y IHx IHy|f l args el r IHf IHargs|p x IHx|x p s IHx|t|] using gexpr_ind'; cbn [pcs ordered]; intros O s0; try reflexivity; try contradiction.
  - cbn [final]. rewrite final_app. reflexivity.
  - cbn [final]. apply IHx. tauto.
  - rewrite !final_app. apply IHy. tauto.
  - rewrite final_app. cbn [final]. rewrite final_app. reflexivity.
  - cbn [final]. apply IHx. tauto.
  - rewrite final_app. reflexivity.
Qed.

(** ** First characters *)
Definition plain (c : ascii) : bool := is_alnum c || ch c dquote || ch c "'" || ch c "`" || ch c "(" || ch c ".".
Lemma plain_free c o : plain c = true -> existsb (ch c) (banned o) = false.
Proof. intros H. destruct c as [[] [] [] [] [] [] [] []]; vm_compute in H; try discriminate; destruct o; reflexivity. Qed.
Definition first_ok (e : gexpr) : Prop :=
  exists c t, go_text e = c :: t /\
    match first_op e with Some u => (prefix_op u \/ u = MUL) /\ exists t', tok_string u = c :: t' | None => plain c = true end.
Lemma first_char e : ordered e -> first_ok e.
Proof.
  induction e as [p x|p k v|l x r IHx|p o x IHx|x p o y IHx IHy|f l args el r IHf IHargs|p x IHx|x p s IHx|t|] using gexpr_ind'; unfold first_ok; cbn [ordered go_text first_op]; intros O; try contradiction.
  - apply name_iff in O. destruct O as (c & t & -> & L & _). exists c, t. split; [reflexivity|]. unfold plain, is_alnum. rewrite L. reflexivity.
  - apply literal_iff in O. destruct O as [[[_ (c & t & -> & D)]|S] _].
    + exists c, t. split; [reflexivity|]. unfold plain, is_alnum. apply orb_true_iff in D. destruct D as [D|D]; [rewrite D; rewrite !orb_true_r; reflexivity|].
      apply andb_true_iff in D. destruct D as [D _]. rewrite D. rewrite !orb_true_r. reflexivity.
    + destruct k; cbn in S; try contradiction; [destruct S as (a & -> & _)|destruct S as [(a & -> & _)|(a & -> & _)]]; eexists _, _; (split; [reflexivity|reflexivity]).
  - eexists _, _. split; [reflexivity|reflexivity].
  - destruct O as (P & _). destruct (tok_string o) as [|c t] eqn:E; [destruct o; discriminate|]. exists c, (t ++ go_text x). split; [reflexivity|]. split; [auto|eauto].
  - destruct (IHx ltac:(tauto)) as (c & t & E & H). rewrite E. exists c. eexists. split; [reflexivity|exact H].
  - destruct (IHf ltac:(tauto)) as (c & t & E & H). rewrite E. exists c. eexists. split; [reflexivity|exact H].
  - eexists _, _. split; [reflexivity|]. split; [auto|eexists; reflexivity].
  - destruct (IHx ltac:(tauto)) as (c & t & E & H). rewrite E. exists c. eexists. split; [reflexivity|exact H].
Qed.
Lemma first_free o e b : o <> LSS -> ordered e -> ~ merges o e -> op_end o (go_text e ++ b).
Proof.
  intros Nl O M c r E. destruct (first_char e O) as (c' & t & Et & H). rewrite Et in E. cbn in E. inversion E; subst. unfold merges in M.
  destruct (first_op e) as [u|]; [|apply plain_free; exact H]. destruct H as [P [t' U]].
  destruct P as [P| ->]; [unfold prefix_op in P; cbn in P; destruct P as [<-|[<-|[<-|[<-|[<-|[<-|[]]]]]]]|]; cbn in U; inversion U; subst; destruct o; try reflexivity; first [destruct (M I)|destruct (Nl eq_refl)].
Qed.

(** ** The tokens stay apart *)
Definition dot_free (b : text) : Prop := forall c r, b = c :: r -> c <> "."%char.
Definition after (e : gexpr) (b : text) : Prop := alnum_end b /\ (level e < 7 \/ number e -> dot_free b).
Lemma scans_op o b : operator o -> op_end o b -> scans (TOp o) (tok_string o) b.
Proof. intros Ho He. split; [destruct o; discriminate|]. intros. apply step_op; assumption. Qed.
Lemma scans_punct k b : k = TLParen \/ k = TRParen \/ k = TComma -> scans k (punct k) b.
Proof. intros H. split; [destruct H as [->|[->| ->]]; discriminate|]. intros. rewrite (step_punct _ _ _ _ _ H). destruct H as [->|[->| ->]]; reflexivity. Qed.
Lemma after_closed e c b : is_alnum c = false -> c <> "."%char -> after e (c :: b).
Proof. intros A D. split; [intros d r X; inversion X; subst; exact A|]. intros _ d r X. inversion X; subst. exact D. Qed.
Lemma level7_after e b : level e = 7 -> ~ number e -> alnum_end b -> after e b.
Proof. intros L N A. split; [exact A|]. intros [X|X]; [lia|contradiction]. Qed.

Lemma infix_operator o : infix o -> operator o. Proof. intros H ->. unfold infix in H. cbn in H. lia. Qed.
Lemma prefix_operator o : prefix_op o -> operator o. Proof. intros H ->. unfold prefix_op in H. cbn in H. intuition discriminate. Qed.
Lemma spaced_iff o : infix o -> (spaced o = true <-> apart o).
Proof. unfold infix, apart. destruct o; cbn; intros; split; intros; try reflexivity; try discriminate; lia. Qed.
Lemma op_head o b : infix o -> exists c t, op_text o ++ b = c :: t /\ is_alnum c = false /\ c <> "."%char.
Proof. intros H. destruct o; unfold infix in H; cbn in H; try lia; eexists _, _; (split; [reflexivity|]); split; (reflexivity || discriminate). Qed.
Lemma spaced_end o b : op_end o (sp :: b).
Proof. intros c r E. inversion E; subst. destruct o; reflexivity. Qed.

Definition comma_ok (args : list gexpr) : Prop := forall rest c t, text_of rest = c :: t -> is_alnum c = false -> c <> "."%char -> runs rest -> runs (comma_pcs (map pcs args) ++ rest).
Lemma args_runs args : Forall (fun a => forall rest, runs rest -> after a (text_of rest) -> runs (pcs a ++ rest)) args -> comma_ok args.
Proof.
  induction 1 as [|a args Ha F IH]; intros rest c t E A D R; [exact R|]. destruct args as [|b args].
  - cbn [map comma_pcs]. apply Ha; [exact R|]. rewrite E. apply after_closed; assumption.
  - change (comma_pcs (map pcs (a :: b :: args))) with (pcs a ++ Tok TComma (str ",") :: Gap :: comma_pcs (map pcs (b :: args))). rewrite <- app_assoc. cbn [app]. apply Ha.
    + cbn [runs]. split; [apply (scans_punct TComma); auto|]. exact (IH rest c t E A D R).
    + apply after_closed; [reflexivity|discriminate].
Qed.

Lemma pcs_runs e : ordered e -> smooth e -> forall rest, runs rest -> after e (text_of rest) -> runs (pcs e ++ rest).
Proof.
  induction e as [p x|p k v|l x r IHx|p o x IHx|x p o y IHx IHy|f l args el r IHf IHargs|p x IHx|x p s IHx|t|] using gexpr_ind'; cbn [ordered smooth pcs]; intros O Sm rest R Af; try contradiction.
  - cbn [app runs]. split; [|exact R]. apply name_iff in O. split; [destruct O as (c & t & -> & _); discriminate|]. intros. apply step_ident; [exact O|apply Af].
  - cbn [app runs]. split; [|exact R]. apply literal_iff in O. destruct O as [[O|O] _].
    + split; [destruct O as (_ & c & t & -> & _); discriminate|]. intros. apply step_number; [exact O|]. destruct Af as [A D]. intros c r E. split; [exact (A c r E)|].
      intros ->. exact (D (or_intror I) c r E).
    + split; [destruct k; cbn in O; try contradiction; [destruct O as (a & -> & _)|destruct O as [(a & -> & _)|(a & -> & _)]]; discriminate|]. intros. apply step_string. exact O.
  - cbn [app runs]. split; [apply (scans_punct TLParen); auto|]. rewrite <- app_assoc. cbn [app]. apply IHx; auto.
    + cbn [runs]. split; [apply (scans_punct TRParen); auto|exact R].
    + rewrite text_of_cons. cbn [piece_text str list_ascii_of_string app]. apply after_closed; [reflexivity|discriminate].
  - destruct O as (P & L & O). destruct Sm as (M & Sm). cbn [app runs]. split.
    + apply scans_op; [apply prefix_operator; exact P|]. rewrite text_of_app, pcs_text. apply first_free; try assumption. intros ->. unfold prefix_op in P. cbn in P. intuition discriminate.
    + apply IHx; auto. destruct Af as [A D]. split; [exact A|]. intros _. apply D. left. cbn. lia.
  - destruct O as (If & Lx & Ly & Ox & Oy). destruct Sm as (M & Sx & Sy). rewrite <- !app_assoc.
    assert (Ry : runs (pcs y ++ rest)).
    { apply IHy; auto. destruct Af as [A D]. split; [exact A|]. intros _. apply D. left. cbn [level]. destruct o; cbn; lia. }
    apply IHx; auto.
    + unfold op_pcs. destruct (spaced o) eqn:So; cbn [app runs]; (split; [|exact Ry]); apply scans_op; try (apply infix_operator; exact If).
      * apply spaced_end.
      * rewrite text_of_app, pcs_text. apply first_free; [intros ->; discriminate|exact Oy|]. destruct M as [M|M]; [|exact M]. apply (spaced_iff o If) in M. congruence.
    + rewrite text_of_app, op_pcs_text. destruct (op_head o (text_of (pcs y ++ rest)) If) as (c & t & -> & A & D). apply after_closed; assumption.
  - destruct O as (Lf & Of & Oa). destruct Sm as (Sf & Sa). apply fold_and in Oa, Sa. rewrite <- app_assoc. cbn [app]. rewrite <- app_assoc. cbn [app]. apply IHf; auto.
    + cbn [runs]. split; [apply (scans_punct TLParen); auto|]. apply (args_runs args) with (c := ")"%char) (t := text_of rest); try reflexivity; try discriminate.
      * rewrite Forall_forall in *. intros a I. apply IHargs; auto.
      * cbn [runs]. split; [apply (scans_punct TRParen); auto|exact R].
    + apply after_closed; [reflexivity|discriminate].
  - destruct O as (L & O). cbn [app runs]. split.
    + apply (scans_op MUL); [discriminate|]. rewrite text_of_app, pcs_text. apply first_free; [discriminate|exact O|]. unfold merges. auto.
    + apply IHx; auto. destruct Af as [A D]. split; [exact A|]. intros _. apply D. left. cbn. lia.
  - destruct O as (L & Ns & O). destruct Sm as (Nn & Sm). rewrite <- app_assoc. cbn [app]. apply name_iff in Ns. apply IHx; auto.
    + cbn [runs]. split; [|split; [|exact R]].
      * split; [discriminate|]. intros. rewrite text_of_cons. cbn [piece_text]. destruct Ns as (c & t & -> & Lc & _). cbn [app]. apply (step_dot n semi pos c (t ++ text_of rest)). exact Lc.
      * split; [destruct Ns as (c & t & -> & _); discriminate|]. intros. apply step_ident; [exact Ns|apply Af].
    + apply level7_after; auto. intros c r E. cbn in E. inversion E; subst. reflexivity.
Qed.

(** ** A property of texts that holds for the whole because it holds for the parts *)
Section Parts.
  Variable Q : text -> Prop.
  Hypothesis Qnil : Q [].
  Hypothesis Qapp : forall a b, Q a -> Q b -> Q (a ++ b).
  Hypothesis Qname : forall x, name_chars x -> Q x.
  Hypothesis Qop : forall o, infix o -> Q (op_text o).
  Hypothesis Qprefix : forall o, prefix_op o \/ o = MUL -> Q (tok_string o).
  Hypothesis Qpunct : Forall (fun s => Q (str s)) ["("; ")"; "."; ", "]%string.
  Lemma parts_text e : ordered e -> Forall Q (literals e) -> Q (go_text e).
  Proof.
    inversion Qpunct as [|? ? Ql Q1]; subst. inversion Q1 as [|? ? Qr Q2]; subst. inversion Q2 as [|? ? Qd Q3]; subst. inversion Q3 as [|? ? Qc _]; subst. clear Q1 Q2 Q3.
    induction e as [p x|p k v|l x r IHx|p o x IHx|x p o y IHx IHy|f l args el r IHf IHargs|p x IHx|x p s IHx|t|] using gexpr_ind'; cbn [ordered literals go_text]; intros O L; try contradiction.
    - apply Qname. apply name_iff. exact O.
    - inversion L; assumption.
    - repeat apply Qapp; auto.
    - destruct O as (P & _ & O). apply Qapp; auto.
    - destruct O as (P & _ & _ & Ox & Oy). apply Forall_app in L. destruct L. repeat apply Qapp; auto.
    - destruct O as (_ & Of & Oa). apply Forall_app in L. destruct L as [Lf La]. repeat apply Qapp; auto.
      apply fold_and in Oa. clear Lf IHf Of. induction IHargs as [|a args Ha F IH]; [exact Qnil|]. inversion Oa; subst. cbn [flat_map] in La. apply Forall_app in La. destruct La as [L1 L2].
      destruct args as [|b args]; [exact (Ha ltac:(assumption) L1)|].
      change (sep_by (str ", ") (map go_text (a :: b :: args))) with (go_text a ++ str ", " ++ sep_by (str ", ") (map go_text (b :: args))).
      apply Qapp; [exact (Ha ltac:(assumption) L1)|]. apply Qapp; [exact Qc|]. apply IH; assumption.
    - destruct O as (_ & O). apply (Qapp (str "*")); [apply (Qprefix MUL); auto|auto].
    - destruct O as (_ & N & O). repeat apply Qapp; auto. apply Qname. apply name_iff. exact N.
  Qed.
End Parts.
Lemma ordered_sources e : ordered e -> Forall go_source (literals e).
Proof.
  induction e as [p x|p k v|l x r IHx|p o x IHx|x p o y IHx IHy|f l args el r IHf IHargs|p x IHx|x p s IHx|t|] using gexpr_ind'; cbn [ordered literals]; intros O; try (constructor; fail); try (intuition auto; fail).
  - constructor; [|constructor]. apply literal_iff in O. apply O.
  - destruct O as (_ & _ & _ & Ox & Oy). apply Forall_app. auto.
  - destruct O as (_ & Of & Oa). apply Forall_app. split; [auto|]. apply fold_and in Oa. clear -IHargs Oa. induction IHargs as [|a args Ha F IH]; [constructor|]. inversion Oa; subst. cbn. apply Forall_app. auto.
Qed.
Ltac plainly := apply GoChars.source_plain; cbn; repeat constructor; vm_compute; split; reflexivity.
Lemma text_source e : ordered e -> go_source (go_text e).
Proof.
  intros O. apply parts_text; [constructor|apply GoChars.source_app|exact name_source|..|exact O|exact (ordered_sources e O)].
  - intros o _. destruct o; plainly.
  - intros o _. destruct o; plainly.
  - repeat constructor; plainly.
Qed.

Lemma go_text_reads e : ordered e -> smooth e -> reads ParseExpr (go_text e) (bare e).
Proof.
  intros O Sm. pose proof (pcs_runs e O Sm [] I ltac:(split; [discriminate|intros _; discriminate])) as R. rewrite app_nil_r in R.
  destruct (runs_scan _ R ltac:(rewrite pcs_text; exact (text_source e O)) (pcs_final e O false)) as (ts & p & E & M). rewrite pcs_text in E. rewrite pcs_toks in M. exact (tokens_read _ _ _ _ O E M).
Qed.
