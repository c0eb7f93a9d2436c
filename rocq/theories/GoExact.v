(** The converse: if the printed text is read as the tree, no tokens run together. *)
From Verif Require Import Text GoAst GoParser SpecPrint SpecSyntax SpecTrees SpecGo SpecWords SpecBack GoFuel GoTree GoLex GoWords GoText GoOrdered GoBack GoWeight.
From Coq Require Import NArith Arith Bool Lia.
Open Scope nat_scope.
Open Scope list_scope.

(** ** The tokens of which the parser makes a tree *)
Definition tail (t : list gtoken) : Prop := t = [] \/ t = [TEllipsis] \/ t = [TEllipsis; TComma].
Inductive spell : gexpr -> list gtoken -> Prop :=
| sp_ident p x : spell (GIdent p x) [TIdent x]
| sp_lit p k v : spell (GBasicLit p k v) [TLit k v]
| sp_paren l x r u : spell x u -> spell (GParen l x r) (TLParen :: u ++ [TRParen])
| sp_unary p o x u : spell x u -> spell (GUnary p o x) (TOp o :: u)
| sp_star p x u : spell x u -> spell (GStar p x) (TOp MUL :: u)
| sp_binary x p o y u w : spell x u -> spell y w -> spell (GBinary x p o y) (u ++ TOp o :: w)
| sp_selector x p s u : spell x u -> spell (GSelector x p s) (u ++ [TDot; TIdent s])
| sp_call f l args el r u w : spell f u -> spell_args args w -> spell (GCall f l args el r) (u ++ TLParen :: w ++ [TRParen])
with spell_args : list gexpr -> list gtoken -> Prop :=
| sa_nil : spell_args [] []
| sa_last a u t : spell a u -> tail t -> spell_args [a] (u ++ t)
| sa_more a args u w : spell a u -> spell_args args w -> spell_args (a :: args) (u ++ TComma :: w).

Definition eats (ts : list ptok) (r : gexpr * list ptok) : Prop := exists us, kinds ts = us ++ kinds (snd r) /\ spell (fst r) us.
Definition eats_on (u : list gtoken) (ts : list ptok) (r : gexpr * list ptok) : Prop := exists us, u ++ kinds ts = us ++ kinds (snd r) /\ spell (fst r) us.
Lemma parse_spell n :
  (forall prec ts, yields (gp_binary n prec ts) (eats ts)) /\
  (forall prec x u ts, spell x u -> yields (gp_binloop n prec x ts) (eats_on u ts)) /\
  (forall ts, yields (gp_unary n ts) (eats ts)) /\
  (forall x u ts, spell x u -> yields (gp_primary n x ts) (eats_on u ts)) /\
  (forall ts, yields (gp_args n ts) (fun r => exists us, kinds ts = us ++ TRParen :: kinds (snd r) /\ spell_args (fst (fst (fst r))) us)).
Proof.
  induction n as [|n (Hb & Hl & Hu & Hp & Ha)]; [repeat split; intros; discriminate|]. split; [|split; [|split; [|split]]].
  - intros prec ts. cbn [gp_binary]. eapply yields_bind; [apply Hu|]. intros [x t] (us & E & S). cbn [fst snd] in *.
    eapply yields_weak; [apply (Hl prec x us t S)|]. intros [e r] (us' & E' & S'). exists us'. split; [congruence|exact S'].
  - intros prec x u ts S. cbn [gp_binloop].
    assert (Stop : yields (Ok (x, ts)) (eats_on u ts)) by (apply yields_ok; exists u; auto).
    destruct ts as [|[[] p] ts]; try exact Stop. destruct ((0 <? tok_prec o) && (prec <=? tok_prec o)); [|exact Stop].
    eapply yields_bind; [apply Hb|]. intros [y t] (w & E & Sy). cbn [fst snd] in *.
    eapply yields_weak; [apply (Hl prec (GBinary x p o y) (u ++ TOp o :: w) t); constructor; assumption|]. intros [e r] (us' & E' & S'). exists us'. split; [|exact S'].
    rewrite <- E'. cbn [map fst]. rewrite E, <- app_assoc. reflexivity.
  - intros ts. cbn [gp_unary].
    assert (Pr : forall x u t w, spell x u -> kinds t = w -> yields (gp_primary n x t) (fun r => exists us, u ++ w = us ++ kinds (snd r) /\ spell (fst r) us)).
    { intros x u t w S <-. exact (Hp x u t S). }
    destruct ts as [|[[] p] ts]; try exact (yields_err _).
    + exact (Pr (GIdent p name) [TIdent name] ts _ (sp_ident _ _) eq_refl).
    + exact (Pr (GBasicLit p k v) [TLit k v] ts _ (sp_lit _ _ _) eq_refl).
    + destruct (unary_op o) eqn:U.
      * eapply yields_bind; [apply Hu|]. intros [x t] (us & E & S). cbn [fst snd] in *. apply yields_ok. exists (TOp o :: us). cbn [map fst snd app]. rewrite E. split; [reflexivity|]. constructor. exact S.
      * destruct o; try exact (yields_err _). eapply yields_bind; [apply Hu|]. intros [x t] (us & E & S). cbn [fst snd] in *. apply yields_ok. exists (TOp MUL :: us). cbn [map fst snd app]. rewrite E. split; [reflexivity|]. constructor. exact S.
    + eapply yields_bind; [apply Hb|]. intros [x t] (us & E & S). cbn [fst snd] in *. destruct t as [|[[] q] t]; try exact (yields_err _).
      eapply yields_weak; [apply (Hp (GParen p x q) (TLParen :: us ++ [TRParen]) t); constructor; exact S|]. intros [e r] (us' & E' & S'). exists us'. split; [|exact S'].
      rewrite <- E'. cbn [map fst app]. rewrite E, <- app_assoc. reflexivity.
  - intros x u ts S. cbn [gp_primary]. assert (Stop : yields (Ok (x, ts)) (eats_on u ts)) by (apply yields_ok; exists u; auto).
    destruct ts as [|[[] p] ts]; try exact Stop.
    + eapply yields_bind; [apply Ha|]. intros [[[ar el] q] t] (us & E & Sa). cbn [fst snd] in *.
      eapply yields_weak; [apply (Hp (GCall x p ar el q) (u ++ TLParen :: us ++ [TRParen]) t); constructor; assumption|]. intros [e r] (us' & E' & S'). exists us'. split; [|exact S'].
      rewrite <- E'. cbn [map fst app]. rewrite E, <- app_assoc. cbn [app]. rewrite <- app_assoc. reflexivity.
    + destruct ts as [|[[] q] ts]; try exact (yields_err _).
      eapply yields_weak; [apply (Hp (GSelector x q name) (u ++ [TDot; TIdent name]) ts); constructor; exact S|]. intros [e r] (us' & E' & S'). exists us'. split; [|exact S'].
      rewrite <- E', <- app_assoc. reflexivity.
  - intros ts.
    assert (Gen : yields (bind (gp_binary n 1 ts) (fun at_ => let '(a, ts') := at_ in
          match ts' with
          | (TEllipsis, e) :: (TRParen, q) :: ts'' => Ok ([a], e, q, ts'')
          | (TEllipsis, e) :: (TComma, _) :: (TRParen, q) :: ts'' => Ok ([a], e, q, ts'')
          | (TComma, _) :: ts'' => bind (gp_args n ts'') (fun r => let '(args, el, q, ts3) := r in Ok (a :: args, el, q, ts3))
          | (TRParen, q) :: ts'' => Ok ([a], NoPos, q, ts'')
          | _ => syntax_error
          end)) (fun r => exists us, kinds ts = us ++ TRParen :: kinds (snd r) /\ spell_args (fst (fst (fst r))) us)).
    { eapply yields_bind; [apply Hb|]. intros [a t] (us & E & S). cbn [fst snd] in *. destruct t as [|[[] q] t]; try exact (yields_err _).
      - apply yields_ok. cbn [fst snd]. exists (us ++ []). split; [rewrite app_nil_r; exact E|]. constructor; [exact S|left; reflexivity].
      - eapply yields_bind; [apply Ha|]. intros [[[ar el] q'] t'] (w & Ew & Sw). apply yields_ok. cbn [fst snd] in *. exists (us ++ TComma :: w). split; [|constructor; assumption].
        rewrite E. cbn [map fst]. rewrite Ew, <- app_assoc. reflexivity.
      - destruct t as [|[[] q1] t]; try exact (yields_err _).
        + apply yields_ok. cbn [fst snd]. exists (us ++ [TEllipsis]). split; [rewrite E, <- app_assoc; reflexivity|]. constructor; [exact S|right; left; reflexivity].
        + destruct t as [|[[] q2] t]; try exact (yields_err _). apply yields_ok. cbn [fst snd]. exists (us ++ [TEllipsis; TComma]). split; [rewrite E, <- app_assoc; reflexivity|]. constructor; [exact S|right; right; reflexivity]. }
    cbn [gp_args]. destruct ts as [|[[] p] ts]; try exact Gen. apply yields_ok. cbn [fst snd]. exists []. split; [reflexivity|constructor].
Qed.

(** ** Reading on *)
(** The tokens read are these, and they account for all of the text: no comments. *)
Definition Goes (t : text) (us : list gtoken) : Prop := exists n semi pos ts, lex n semi pos t = Ok ts /\ kinds ts = us /\ dark t <= weights us.
Lemma emits_ok n k semi pos l v b ts u us : emits n k semi pos l b = Ok ts -> kinds ts = u :: us -> dark (v ++ b) <= weights (u :: us) ->
  u = k /\ (weight k <= dark v -> Goes b us).
Proof.
  unfold emits. destruct (lex n semi (pos + N.of_nat l)%N b) as [ts'|x|x] eqn:E; try discriminate. cbn [bind]. intros X. inversion X; subst. cbn [map fst]. intros Y. injection Y as <- <-. intros D.
  split; [reflexivity|]. intros W. exists n, semi, (pos + N.of_nat l)%N, ts'. split; [exact E|]. split; [reflexivity|]. rewrite dark_app, weights_cons in D. lia.
Qed.
Lemma emits_goes n k semi pos l v b ts u us : weight k = dark v -> emits n k semi pos l b = Ok ts -> kinds ts = u :: us -> dark (v ++ b) <= weights (u :: us) -> u = k /\ Goes b us.
Proof. intros W E K D. destruct (emits_ok _ _ _ _ _ v _ _ _ _ E K D) as [X G]. split; [exact X|]. apply G. lia. Qed.
Lemma goes_gap t us : Goes (sp :: t) us -> Goes t us.
Proof. intros (n & semi & pos & ts & E & K & D). destruct n as [|n]; [discriminate|]. rewrite step_blank in E. exists n, semi, (pos + 1)%N, ts. auto. Qed.
Lemma goes_punct k b u us : k = TLParen \/ k = TRParen \/ k = TComma -> Goes (punct k ++ b) (u :: us) -> u = k /\ Goes b us.
Proof.
  intros P (n & semi & pos & ts & E & K & D). destruct n as [|n]; [discriminate|]. rewrite (step_punct _ _ _ _ _ P) in E. revert E K D. apply emits_goes. destruct P as [->|[->| ->]]; reflexivity.
Qed.
Lemma goes_dot c b u us : is_letter c = true -> Goes ("."%char :: c :: b) (u :: us) -> u = TDot /\ Goes (c :: b) us.
Proof.
  intros L (n & semi & pos & ts & E & K & D). destruct n as [|n]; [discriminate|]. pose proof (step_dot n semi pos c b L) as X. cbn [punct str list_ascii_of_string app] in X. rewrite X in E.
  revert E K D. apply (emits_goes _ _ _ _ _ ["."%char]). reflexivity.
Qed.
Lemma goes_string k v b u us : str_chars k v -> Goes (v ++ b) (u :: us) -> u = TLit k v /\ Goes b us.
Proof. intros S (n & semi & pos & ts & E & K & D). destruct n as [|n]; [discriminate|]. rewrite (step_string _ _ _ _ _ _ S) in E. revert E K D. apply emits_goes. reflexivity. Qed.
Lemma goes_op o b u us : operator o -> op_end o b -> Goes (tok_string o ++ b) (u :: us) -> u = TOp o /\ Goes b us.
Proof. intros H He (n & semi & pos & ts & E & K & D). destruct n as [|n]; [discriminate|]. rewrite (step_op _ _ _ _ _ H He) in E. revert E K D. apply emits_goes. reflexivity. Qed.
Lemma goes_ident x b us : name_chars x -> Goes (x ++ b) (TIdent x :: us) -> Goes b us.
Proof.
  intros (c & t & -> & Hc & _ & _) (n & semi & pos & ts & E & K & D). destruct n as [|n]; [discriminate|]. destruct (letter_class c Hc) as (C1 & C2 & C3). cbn [app lex] in E. rewrite C1, C2, Hc in E.
  destruct (span is_alnum (c :: t ++ b)) as [w r] eqn:Sp. apply span_eq in Sp. destruct Sp as (Sp & _). change (c :: t ++ b) with ((c :: t) ++ b) in Sp. rewrite Sp in D. destruct (is_keyword w).
  - destruct (emits_ok _ _ _ _ _ _ _ _ _ _ E K D); discriminate.
  - destruct (good_name w); [|discriminate]. destruct (emits_goes _ (TIdent w) _ _ _ w _ _ _ _ eq_refl E K D) as [X G]. injection X as <-. apply app_inv_head in Sp. subst r. exact G.
Qed.
Lemma int_no_dot s v r : lex_number s = Some (LInt, v, r) -> s = v ++ r /\ forall r', r <> "."%char :: r'.
Proof.
  intros E. split; [exact (proj1 (number_spec _ _ _ _ [] E))|]. revert E. unfold lex_number. destruct (cut_prefix s) as [[x pre] s0]. destruct (span (in_digits x) s0) as [d1 s1]. destruct (cut_fraction x s1) as [fr s2] eqn:C2.
  destruct (cut_exponent s2) as [[es ed] s3] eqn:C3. destruct (cut_suffix s3) as [im s4] eqn:C4. destruct (number_valid x pre d1 fr es ed im); [|discriminate]. intros E r' ->.
  injection E as K _ ->. unfold number_kind in K. destruct im; [|discriminate]. destruct fr; [|discriminate]. destruct es; [|discriminate].
  apply suffix_cut in C4. destruct C4 as [-> _]. apply exponent_cut in C3. destruct C3 as [-> [[_ ->]|(e & g & X & _)]]; [|discriminate]. cbn [app] in C2.
  destruct s1 as [|c s1]; cbn in C2; [discriminate|]. destruct (ch c ".") eqn:D; [destruct (span (in_digits x) s1); discriminate|]. injection C2 as -> _. discriminate.
Qed.
Lemma goes_number k v b us : num_chars k v -> Goes (v ++ b) (TLit k v :: us) -> Goes b us /\ (k = LInt -> forall r, b <> "."%char :: r).
Proof.
  intros [_ (c & t & -> & Hc)] (n & semi & pos & ts & E & K & D). destruct n as [|n]; [discriminate|].
  assert (C : ch c nl = false /\ ch c sp || ch c tab || ch c cr = false /\ is_letter c = false).
  { apply orb_true_iff in Hc. destruct Hc as [Hc|Hc]; [apply digit_class; exact Hc|]. apply andb_true_iff in Hc. destruct Hc as [Hc _]. apply ch_eq in Hc. subst. repeat split. }
  destruct C as (C1 & C2 & C3). cbn [app] in *. cbn [lex] in E. rewrite C1, C2, C3 in E.
  assert (Hc' : (is_digit c || (ch c "." && match t ++ b with d :: _ => is_digit d | [] => false end)) = true).
  { destruct (is_digit c); [reflexivity|]. cbn [orb] in *. destruct (ch c "."); [|discriminate]. cbn [andb] in *. destruct t; [discriminate|exact Hc]. }
  rewrite Hc' in E. destruct (lex_number (c :: t ++ b)) as [[[k' v'] r]|] eqn:L; [|discriminate].
  pose proof (proj1 (number_spec _ _ _ _ [] L)) as Es. rewrite Es in D. destruct (emits_goes _ (TLit k' v') _ _ _ v' _ _ _ _ eq_refl E K D) as [X G]. injection X as <- <-.
  change (c :: t ++ b) with ((c :: t) ++ b) in Es. apply app_inv_head in Es. subst r. split; [exact G|]. intros ->. exact (proj2 (int_no_dot _ _ _ L)).
Qed.

(** ** Operators that run together *)
Lemma merge_bad o e b us : ordered e -> merges o e -> ~ Goes (tok_string o ++ go_text e ++ b) (TOp o :: us).
Proof.
  intros O M (n & semi & pos & ts & E & K & D). destruct n as [|n]; [discriminate|]. destruct (first_char e O) as (c & t & Et & F). rewrite Et in *. clear Et O. unfold merges in M.
  assert (Bad : forall k l r, emits n k false pos l r = Ok ts -> k = TOp o).
  { intros k l r X. unfold emits in X. destruct (lex n false (pos + N.of_nat l)%N r); try discriminate. cbn [bind] in X. injection X as <-. injection K as -> _. reflexivity. }
  destruct (first_op e) as [w|]; [|destruct o; contradiction]. destruct F as [_ [t' F]].
  destruct o; try contradiction; destruct w; try contradiction; cbn in F; injection F as <- _; cbn [tok_string str list_ascii_of_string app] in E, D.
  - change (emits n TBad false pos 2 (t ++ b) = Ok ts) in E. specialize (Bad _ _ _ E). discriminate.
  - change (emits n TBad false pos 2 (t ++ b) = Ok ts) in E. specialize (Bad _ _ _ E). discriminate.
  - change (match comment_end (t ++ b) false with
       | None => Err (str "comment not terminated")
       | Some (hasnl, r) => let pos' := (pos + N.of_nat (List.length ("/"%char :: "*"%char :: t ++ b) - List.length r))%N in
           if semi && hasnl then bind (lex n false pos' r) (fun ts => Ok ((TSemi, pos) :: ts)) else lex n semi pos' r end = Ok ts) in E.
    destruct (comment_end (t ++ b) false) as [[h r]|] eqn:C; [|discriminate]. apply comment_weight in C. cbv zeta in E.
    change (dark ("/"%char :: "*"%char :: t ++ b)) with (2 + dark (t ++ b)) in D. rewrite <- K in D.
    destruct (semi && h).
    + match type of E with bind (lex n false ?q r) _ = _ => destruct (lex n false q r) as [us'|x|x] end; try discriminate. cbn [bind] in E. injection E as <-. discriminate.
    + apply lex_weight in E. lia.
  - destruct (t ++ b) as [|d r].
    + change (emits n (TOp AND_NOT) false pos 2 [] = Ok ts) in E. specialize (Bad _ _ _ E). discriminate.
    + assert (X : exists k l r', emits n k false pos l r' = Ok ts /\ k <> TOp AND).
      { destruct (ascii_dec d "=").
        - subst d. exists TBad, 3, r. split; [exact E|discriminate].
        - exists (TOp AND_NOT), 2, (d :: r). split; [|discriminate]. rewrite <- E. cbn [lex].
          assert (L : lex_operator ("&"%char :: "^"%char :: d :: r) = Some (TOp AND_NOT, 2)); [|cbn; rewrite L; reflexivity].
          destruct d as [[] [] [] [] [] [] [] []]; try reflexivity. congruence. }
      destruct X as (k & l & r' & X & Nk). exact (Nk (Bad _ _ _ X)).
  - change (emits n (TOp LAND) false pos 2 (t ++ b) = Ok ts) in E. specialize (Bad _ _ _ E). discriminate.
Qed.
Lemma merges_dec o e : merges o e \/ ~ merges o e.
Proof. unfold merges. destruct o; try (right; tauto); destruct (first_op e) as [w|]; try (right; tauto); destruct w; tauto. Qed.

(** ** The tokens of a tree weigh at least what its text does *)
Lemma op_dark o : dark (op_text o) = weight (TOp o).
Proof. unfold op_text. destruct (spaced o); [rewrite !dark_app; cbn [weight]; change (dark (str " ")) with 0; lia|reflexivity]. Qed.
Scheme spell_ind' := Induction for spell Sort Prop with spell_args_ind' := Induction for spell_args Sort Prop.
Combined Scheme spell_both from spell_ind', spell_args_ind'.
Lemma spell_weight : (forall e us, spell e us -> dark (go_text e) <= weights us) /\
  (forall args us, spell_args args us -> dark (sep_by (str ", ") (map go_text args)) <= weights us).
Proof.
  apply spell_both; intros; cbn [go_text map sep_by].
  - cbn. lia.
  - cbn. lia.
  - rewrite !dark_app, weights_cons, weights_app. change (dark (str "(")) with 1. change (dark (str ")")) with 1. change (weights [TRParen]) with 1. cbn [weight]. lia.
  - rewrite dark_app, weights_cons. cbn [weight]. lia.
  - rewrite dark_app, weights_cons. change (dark (str "*")) with 1. cbn [weight]. change (dark (tok_string MUL)) with 1. lia.
  - rewrite !dark_app, weights_app, weights_cons, op_dark. lia.
  - rewrite !dark_app, weights_app. change (dark (str ".")) with 1. rewrite !weights_cons. cbn [weight]. lia.
  - rewrite !dark_app, weights_app, weights_cons, weights_app. change (dark (str "(")) with 1. change (dark (str ")")) with 1. change (weights [TRParen]) with 1. cbn [weight]. lia.
  - cbn. lia.
  - rewrite weights_app. lia.
  - destruct args as [|a' args]; [cbn [map]; rewrite weights_app; lia|]. cbn [map] in *. rewrite weights_app, weights_cons, !dark_app. change (dark (str ", ")) with 1. cbn [weight]. lia.
Qed.

(** ** The tree's text read token by token *)
Definition exact (e : gexpr) : Prop := forall b us us', Goes (go_text e ++ b) (us ++ us') -> spell e us ->
  smooth e /\ Goes b us' /\ (number e -> forall r, b <> "."%char :: r).
Lemma args_exact args : Forall exact args -> forall b us us',
  Goes (sep_by (str ", ") (map go_text args) ++ str ")" ++ b) (us ++ TRParen :: us') -> spell_args args us -> Forall smooth args /\ Goes b us'.
Proof.
  induction 1 as [|a args Ha F IH]; intros b us us' G S.
  - inversion S; subst. cbn [map sep_by app] in G. destruct (goes_punct TRParen b _ _ ltac:(auto) G) as [_ G']. split; [constructor|exact G'].
  - assert (Close : forall t w, (forall x, t <> TRParen :: x) -> Goes (str ")" ++ b) (t ++ TRParen :: w) -> t = [] /\ Goes b w).
    { intros t w Nt Gt. destruct t as [|k t]; cbn [app] in Gt; destruct (goes_punct TRParen b _ _ ltac:(auto) Gt) as [X Gb]; [auto|]. subst k. elim (Nt t eq_refl). }
    destruct args as [|a' args].
    + cbn [map sep_by] in G. inversion S as [|? u t Sa T|? ? u w Sa Sw]; subst.
      * rewrite <- app_assoc in G. destruct (Ha _ _ _ G Sa) as (Sm & G' & _). assert (Nt : forall x, t <> TRParen :: x) by (intros x ->; destruct T as [T|[T|T]]; discriminate).
        destruct (Close _ _ Nt G') as [_ Gb]. split; [repeat constructor; exact Sm|exact Gb].
      * rewrite <- app_assoc in G. destruct (Ha _ _ _ G Sa) as (Sm & G' & _). destruct (Close (TComma :: w) us' ltac:(discriminate) G') as [X _]. discriminate.
    + change (sep_by (str ", ") (map go_text (a :: a' :: args))) with (go_text a ++ str ", " ++ sep_by (str ", ") (map go_text (a' :: args))) in G. rewrite <- !app_assoc in G.
      inversion S as [| |? ? u w Sa Sw]; subst. rewrite <- app_assoc in G. cbn [app] in G. destruct (Ha _ _ _ G Sa) as (Sm & G' & _). destruct (goes_punct TComma _ _ _ ltac:(auto) G') as [_ G2]. apply goes_gap in G2.
      destruct (IH b w us' G2 Sw) as [F' Gb]. split; [constructor; assumption|exact Gb].
Qed.
Lemma tree_exact e : ordered e -> exact e.
Proof.
  induction e as [p x|p k v|l x r IHx|p o x IHx|x p o y IHx IHy|f l args el r IHf IHargs|p x IHx|x p s IHx|t|] using gexpr_ind'; unfold exact; cbn [ordered smooth go_text]; intros O b us us' G S; try contradiction; inversion S; subst; clear S.
  - apply name_iff in O. split; [exact I|]. split; [exact (goes_ident x b us' O G)|contradiction].
  - apply literal_iff in O. destruct O as [[O|O] _].
    + destruct (goes_number k v b us' O G) as [Gb D]. split; [exact I|]. split; [exact Gb|]. intros K. apply D. destruct k; cbn in K; tauto.
    + destruct (goes_string k v b _ us' O G) as [_ Gb]. split; [exact I|]. split; [exact Gb|]. intros K. destruct k; cbn in K, O; tauto.
  - rewrite <- !app_assoc in G; rewrite <- ?app_assoc in G. cbn [app] in G. destruct (goes_punct TLParen _ _ _ ltac:(auto) G) as [_ G1]. rewrite <- app_assoc in G1.
    destruct (IHx O _ _ _ G1 ltac:(eassumption)) as (Sm & G2 & _). destruct (goes_punct TRParen _ _ _ ltac:(auto) G2) as [_ G3]. auto.
  - destruct O as (P & L & O). rewrite <- !app_assoc in G; rewrite <- ?app_assoc in G. cbn [app] in G. destruct (merges_dec o x) as [M|M]; [elim (merge_bad o x b _ O M G)|].
    destruct (goes_op o _ _ _ (prefix_operator o P) (first_free o x b ltac:(intros ->; unfold prefix_op in P; cbn in P; intuition discriminate) O M) G) as [_ G1].
    destruct (IHx O _ _ _ G1 ltac:(eassumption)) as (Sm & G2 & _). auto.
  - destruct O as (If & _ & _ & Ox & Oy). rewrite <- !app_assoc in G; rewrite <- ?app_assoc in G. destruct (IHx Ox _ _ _ G ltac:(eassumption)) as (Sx & G1 & _). cbn [app] in G1.
    assert (Op : (apart o \/ ~ merges o y) /\ Goes (go_text y ++ b) (w ++ us')).
    { unfold op_text in G1. destruct (spaced o) eqn:Sp.
      - change (str " " ++ tok_string o ++ str " ") with (sp :: tok_string o ++ [sp]) in G1. cbn [app] in G1. apply goes_gap in G1. rewrite <- app_assoc in G1. cbn [app] in G1.
        destruct (goes_op o _ _ _ (infix_operator o If) (spaced_end o _) G1) as [_ G2]. apply goes_gap in G2. split; [left; apply spaced_iff; assumption|exact G2].
      - destruct (merges_dec o y) as [M|M]; [elim (merge_bad o y b _ Oy M G1)|]. destruct (goes_op o _ _ _ (infix_operator o If) (first_free o y b ltac:(intros ->; discriminate) Oy M) G1) as [_ G2]. auto. }
    destruct Op as [Op G2]. destruct (IHy Oy _ _ _ G2 ltac:(eassumption)) as (Sy & G3 & _). auto 6.
  - destruct O as (Lf & Of & Oa). rewrite <- !app_assoc in G; rewrite <- ?app_assoc in G. destruct (IHf Of _ _ _ G ltac:(eassumption)) as (Sf & G1 & _). cbn [app] in G1. destruct (goes_punct TLParen _ _ _ ltac:(auto) G1) as [_ G2].
    rewrite <- app_assoc in G2. cbn [app] in G2. apply fold_and in Oa.
    destruct (args_exact args) with (b := b) (us := w) (us' := us') as [Sa G3]; auto; [rewrite Forall_forall in *; intros a I; apply IHargs; auto|]. split; [split; [exact Sf|apply fold_and; exact Sa]|]. auto.
  - destruct O as (L & O). change (str "*" ++ go_text x) with (tok_string MUL ++ go_text x) in G. rewrite <- !app_assoc in G; rewrite <- ?app_assoc in G. cbn [app] in G.
    assert (M : ~ merges MUL x) by (unfold merges; auto). destruct (goes_op MUL _ _ _ ltac:(discriminate) (first_free MUL x b ltac:(discriminate) O M) G) as [_ G1].
    destruct (IHx O _ _ _ G1 ltac:(eassumption)) as (Sm & G2 & _). auto.
  - destruct O as (L & Ns & O). apply name_iff in Ns. rewrite <- !app_assoc in G; rewrite <- ?app_assoc in G. destruct (IHx O _ _ _ G ltac:(eassumption)) as (Sm & G1 & D). cbn [app] in G1.
    assert (G2 : Goes (s ++ b) (TIdent s :: us')). { destruct Ns as (c & t & -> & Lc & _). exact (proj2 (goes_dot c (t ++ b) _ _ Lc G1)). }
    split; [split; [|exact Sm]|split; [exact (goes_ident s b us' Ns G2)|contradiction]]. intros X. exact (D X _ eq_refl).
Qed.

Lemma go_text_bare e : go_text (bare e) = go_text e.
Proof.
  induction e as [p x|p k v|l x r IHx|p o x IHx|x p o y IHx IHy|f l args el r IHf IHargs|p x IHx|x p s IHx|t|] using gexpr_ind'; cbn [bare go_text]; try congruence.
  rewrite IHf. do 3 f_equal. f_equal. rewrite map_map. clear -IHargs. induction IHargs; cbn; congruence.
Qed.
Lemma reads_smooth e : ordered e -> reads ParseExpr (go_text e) e -> smooth e.
Proof.
  intros O (raw & E & _ & Eb). unfold ParseExpr in E. rewrite (scan_source _ (text_source e O)) in E. destruct (lex (Datatypes.S (List.length (go_text e))) false 1%N (go_text e)) as [ts|x|x] eqn:L; cbn [bind] in E; try discriminate.
  destruct (gp_binary (4 * List.length ts + 4) 1 ts) as [[e' r]|x|x] eqn:G; cbn [bind] in E; try discriminate. assert (e' = raw) by (destruct r as [|[[] p] [|? ?]]; inversion E; reflexivity). subst e'.
  destruct (proj1 (parse_spell _) 1 ts _ G) as (us & Ek & S). cbn [fst snd] in *. subst e.
  apply smooth_bare. apply (proj1 (ordered_bare raw)) in O.  rewrite go_text_bare in L. apply (tree_exact raw O [] us (kinds r)).
  - rewrite app_nil_r. eexists _, _, _, ts. split; [exact L|]. split; [exact Ek|]. rewrite weights_app. pose proof (proj1 spell_weight _ _ S). lia.
  - exact S.
Qed.
