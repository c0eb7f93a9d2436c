(** Sources that differ in layout only are written forms of the same rules. *)
From Verif Require Import Text GoAst Ast SpecPrint SpecTrim SpecSyntax SpecSource SpecLayout SynWords SynTrim Utf8 Parse.
From Verif Require Import GoExpr Grammar.
From Coq Require Import NArith Arith Bool Lia.
Open Scope nat_scope.
Open Scope list_scope.

Scheme lvalue_ind2 := Induction for lvalue Sort Prop
  with loperands_ind2 := Induction for loperands Sort Prop
  with loperand_ind2 := Induction for loperand Sort Prop.
Combined Scheme lvalues_ind from lvalue_ind2, loperands_ind2, loperand_ind2.

Section Layout.
  Variable gp : text -> res gexpr.

  Lemma flag_ok m ell : opt_all ws1 ell -> flag_form m (given ell (fun u => u ++ m)) (match ell with Some _ => true | None => false end).
  Proof. destruct ell as [w|]; cbn; intros H; constructor. exact H. Qed.
  Lemma opt_same (a b : option text) : option_map (fun _ => @nil ascii) a = option_map (fun _ => []) b ->
    match a with Some _ => true | None => false end = match b with Some _ => true | None => false end.
  Proof. destruct a, b; cbn; congruence. Qed.

  (** What the words mean, whatever the layout. *)
  Definition means (v : lvalue) (x : value) : Prop := forall v', value_words v' = value_words v -> laid_value v' -> value_form gp (value_source v') x.
  Definition operands_mean (l : loperands) (xs : list operand) : Prop := forall l', operands_words l' = operands_words l -> laid_operands l' -> operands_form gp (operands_source l') xs.
  Definition operand_means (o : loperand) (x : operand) : Prop := forall o', operand_words o' = operand_words o -> laid_operand o' -> operand_form gp (operand_source o') x.
  Definition set {A} (o : option A) : bool := match o with Some _ => true | None => false end.
  Lemma means_atom t x : expr_form gp t x -> means (LAtom t) x.
  Proof. intros X [t'|] E _; [|discriminate]. injection E as ->. constructor. exact X. Qed.
  Lemma means_sexp b w o ops ell trl w' xs : b = [] \/ ident b -> op_wf o -> operands_mean ops xs -> means (LSexp b w o ops ell trl w') (SExp (assemble b o xs (set ell) (set trl))).
  Proof.
    intros B O X [t|b2 w2 o2 ops2 ell2 trl2 w2'] E L; [discriminate|]. cbn [value_words] in E. injection E as -> -> Eo Ee Et. destruct L as (L1 & L2 & L3 & L4 & L5).
    unfold set. rewrite <- (opt_same _ _ Ee), <- (opt_same _ _ Et). cbn [value_source]. apply value_sexpr; auto; apply flag_ok; assumption.
  Qed.
  Lemma means_none : operands_mean LNone [].
  Proof. intros [|]; [|discriminate]. intros _ _. constructor. Qed.
  Lemma means_more w x rest y ys : operand_means x y -> operands_mean rest ys -> operands_mean (LMore w x rest) (y :: ys).
  Proof. intros Y Ys [|w2 x2 r2]; [discriminate|]. cbn [operands_words]. intros E (L1 & L2 & L3). injection E as Ex Er. cbn [operands_source]. constructor; auto. Qed.
  Lemma means_type t : t <> [] -> ~ In ">"%char t -> operand_means (LType t) (OType t).
  Proof. intros N I [t'|t'|t'|v']; cbn; try discriminate. intros [= ->] _. apply operand_type; assumption. Qed.
  Lemma means_auxint t e : t <> [] -> ~ In "]"%char t -> reads gp t e -> operand_means (LAuxInt t) (OAuxInt e).
  Proof. intros N I R [t'|t'|t'|v']; cbn; try discriminate. intros [= ->] _. apply operand_auxint; assumption. Qed.
  Lemma means_aux t e : t <> [] -> ~ In "}"%char t -> reads gp t e -> operand_means (LAux t) (OAux e).
  Proof. intros N I R [t'|t'|t'|v']; cbn; try discriminate. intros [= ->] _. apply operand_aux; assumption. Qed.
  Lemma means_arg v x : means v x -> operand_means (LArg v) (OArg x).
  Proof. intros X [t'|t'|t'|v']; cbn; try discriminate. intros [= E] L. apply operand_value. auto. Qed.

  Lemma laid_forms :
    (forall v, word_value gp v -> exists x, means v x) /\
    (forall l, word_operands gp l -> exists xs, operands_mean l xs) /\
    (forall o, word_operand gp o -> exists x, operand_means o x).
  Proof.
    apply lvalues_ind.
    - intros t [x X]. exists x. apply means_atom. exact X.
    - intros b w o ops IH ell trl w' (B & O & W). destruct (IH W) as [xs X]. eexists. apply means_sexp; eassumption.
    - intros _. exists []. apply means_none.
    - intros w x IHx rest IHr [Wx Wr]. destruct (IHx Wx) as [y Y]. destruct (IHr Wr) as [ys Ys]. exists (y :: ys). apply means_more; assumption.
    - intros t [N I]. eexists. apply means_type; assumption.
    - intros t (N & I & e & R). eexists. eapply means_auxint; eassumption.
    - intros t (N & I & e & R). eexists. eapply means_aux; eassumption.
    - intros v IH W. destruct (IH W) as [x X]. exists (OArg x). apply means_arg. exact X.
  Qed.

  (** Every written value is some layout of words. *)
  Lemma flag_layout m t b : flag_form m t b -> exists o, t = given o (fun u => u ++ m) /\ b = set o /\ opt_all ws1 o.
  Proof. intros [|w W]; [exists None|exists (Some w)]; cbn; auto. Qed.
  Lemma value_layout :
    (forall t x, value_form gp t x -> exists v, t = value_source v /\ word_value gp v /\ laid_value v /\ means v x) /\
    (forall t xs, operands_form gp t xs -> exists l, t = operands_source l /\ word_operands gp l /\ laid_operands l /\ operands_mean l xs) /\
    (forall t x, operand_form gp t x -> exists o, t = operand_source o /\ word_operand gp o /\ laid_operand o /\ operand_means o x).
  Proof.
    apply value_forms_ind.
    - intros t v E. exists (LAtom t). repeat split; [exists v; exact E|apply means_atom; exact E].
    - intros b w o opst ops ell el trl tr w' B W O _ (l & -> & Wl & Ll & Ml) Fe Ft W'. destruct (flag_layout _ _ _ Fe) as (oe & -> & -> & Le). destruct (flag_layout _ _ _ Ft) as (ot & -> & -> & Lt).
      exists (LSexp b w o l oe ot w'). split; [reflexivity|]. split; [cbn; tauto|]. split; [cbn; tauto|]. apply means_sexp; assumption.
    - exists LNone. repeat split. apply means_none.
    - intros w t x rest xs W _ (y & -> & Wy & Ly & My) _ (l & -> & Wl & Ll & Ml). exists (LMore w y l). split; [reflexivity|]. split; [cbn; tauto|]. split; [cbn; tauto|]. apply means_more; assumption.
    - intros t N I. exists (LType t). repeat split; auto. apply means_type; assumption.
    - intros t e N I R. exists (LAuxInt t). repeat split; auto; [exists e; exact R|]. apply means_auxint; assumption.
    - intros t e N I R. exists (LAux t). repeat split; auto; [exists e; exact R|]. apply means_aux; assumption.
    - intros t v _ (l & -> & Wl & Ll & Ml). exists (LArg l). repeat split; auto. apply means_arg. exact Ml.
  Qed.

  Lemma skip_first k : skip k -> begins (fun c => blank c \/ c = "/"%char) k.
  Proof. intros [c B|a N]; [exists c, []; auto|eexists _, _; split; [reflexivity|auto]]. Qed.
  Lemma ws1_first w : ws1 w -> begins (fun c => blank c \/ c = "/"%char) w.
  Proof. intros [W N]. destruct W as [|k t K W]; [congruence|]. destruct (skip_first k K) as (c & k' & -> & H). exists c, (k' ++ t). auto. Qed.
  (** The text ends here, or layout follows. *)
  Definition apart (after : text) : Prop := after = [] \/ begins (fun c => blank c \/ c = "/"%char) after.
  Lemma ws_apart w rest : ws w -> w <> [] \/ apart rest -> apart (w ++ rest).
  Proof.
    intros W [N|A]; [right; destruct (ws1_first w (conj W N)) as (c & w' & -> & H); exists c, (w' ++ rest); auto|].
    destruct w as [|c w]; [exact A|]. right. destruct (ws1_first (c :: w)) as (d & w' & E & H); [split; [exact W|discriminate]|]. rewrite E. exists d, (w' ++ rest). auto.
  Qed.
  Lemma end_ok t after : apart after -> value_end t after.
  Proof.
    intros F. split.
    - intros _. split.
      + intros c t' E. destruct F as [F|(d & w' & F & H)]; [rewrite F in E; discriminate|]. rewrite F in E. injection E as -> ->. intros X. destruct H as [[->|[->|[->| ->]]]| ->]; destruct X as [X|[X|[X|X]]]; discriminate.
      + intros u a u' after' _ _ _ E. destruct F as [F|(d & w' & F & H)]; [rewrite F in E; discriminate|]. rewrite F in E. injection E as E _. subst d. destruct H as [[X|[X|[X|X]]]|X]; discriminate.
    - intros _ c t' E <-. destruct F as [F|(d & w' & F & H)]; [rewrite F in E; discriminate|]. rewrite F in E. injection E as E _. subst d. destruct H as [[X|[X|[X|X]]]|X]; discriminate.
  Qed.

  Lemma spaces_app a b : spaces a -> spaces b -> spaces (a ++ b).
  Proof. induction 1; cbn; auto. rewrite <- app_assoc. constructor; auto. Qed.
  Lemma blank_spaces l : Forall blank l -> spaces (one_line l).
  Proof.
    induction 1 as [|c l B _ IH]; [constructor|]. unfold one_line in *. cbn [map].
    assert (K : space_char [if ascii_dec c nl then sp else c]).
    { destruct B as [->|[->|[->| ->]]]; [exists 32%N|exists 9%N|exists 13%N|exists 32%N]; (split; [cbn; tauto|reflexivity]). }
    exact (spaces_cons _ _ K IH).
  Qed.
  Lemma cond_blanks c l e : reads_cond gp c e -> Forall blank l -> reads_cond gp (c ++ l) e.
  Proof.
    intros (t & (a & b & E & A & B & P & Q) & R) L. exists t. split; [|exact R]. exists a, (b ++ one_line l). unfold one_line in *. rewrite map_app, E, <- !app_assoc. repeat split; auto. apply spaces_app; [exact B|exact (blank_spaces _ L)].
  Qed.
  Lemma arrow_in x y c l : ~ In "="%char l -> c ++ l = x ++ str "=>" ++ y -> exists y', c = x ++ str "=>" ++ y' \/ c = x ++ ["="%char].
  Proof.
    intros N. revert x. induction c as [|d c IH]; intros x E.
    - cbn [app] in E. subst l. elim N. apply in_app_iff. right. left. reflexivity.
    - destruct x as [|d' x].
      + injection E as -> E. destruct c as [|d c]; [exists []; right; reflexivity|]. injection E as -> E. exists c. left. reflexivity.
      + injection E as -> E. destruct (IH x E) as [y' [->| ->]]; exists y'; [left|right]; reflexivity.
  Qed.
  Lemma snoc_cases (l : text) : l <> [] -> exists l' b, l = l' ++ [b].
  Proof. intros N. destruct (exists_last N) as (l' & b & E). eauto. Qed.

  Definition cond_means (c : option (text * text * text)) (oe : option gexpr) : Prop :=
    match c with Some (_, _, c) => exists e, oe = Some e /\ reads_cond gp c e | None => oe = None end.
  Definition rule_means (r : lrule) (x : rule) : Prop :=
    means (l_match r) (r_match x) /\ cond_means (l_cond r) (r_cond x) /\ r_block x = match l_block r with Some (b, _) => b | None => [] end /\ means (l_result r) (r_result x).
  Lemma word_rule_means r : word_rule gp r -> exists x, rule_means r x.
  Proof.
    intros (Wm & Wc & Wb & Wr). destruct (proj1 laid_forms _ Wm) as [vm Vm]. destruct (proj1 laid_forms _ Wr) as [vr Vr].
    assert (C : exists oe, cond_means (l_cond r) oe).
    { unfold cond_means. destruct (l_cond r) as [[[u u'] c]|]; [|eauto]. cbn in Wc. destruct Wc as (_ & _ & _ & _ & e & R). eauto. }
    destruct C as [oe C]. exists (mkRule vm oe (match l_block r with Some (b, _) => b | None => [] end) vr). repeat split; assumption.
  Qed.
  Lemma laid_rule_form r x : word_rule gp r -> rule_means r x -> forall r' after,
    rule_words r' = rule_words r -> laid_rule r' -> apart after ->
    exists t, rule_source r' = l_before r' ++ t /\ rule_form gp after t x.
  Proof.
    intros (Wm & Wc & Wb & Wr) (Vm & C & Eblk & Vr). unfold cond_means in C. destruct x as [vm oe blk vr]. cbn [r_match r_cond r_block r_result] in *. subst blk.
    intros [bf m c lf rt bl rs] after E (Lb & Lm & Lc & Ll & Lr & Lbl & Lrs) N. unfold rule_words in E. cbn [l_before l_match l_cond l_left l_right l_block l_result] in *. injection E as Em Ec Eb Er.
    unfold rule_source. cbn [l_before l_match l_cond l_left l_right l_block l_result]. eexists. split; [reflexivity|].
    assert (Bf : forall after0, exists bt w3, given bl (fun '(b, w) => str "@" ++ b ++ w) = bt ++ w3 /\ ws w3 /\ block_form (w3 ++ after0) bt (match l_block r with Some (b, _) => b | None => [] end)).
    { intros after0. destruct bl as [[b w0]|], (l_block r) as [[b2 w2]|]; try discriminate.
      - injection Eb as ->. destruct Lbl as [W0 (d & w0' & -> & Hd)]. destruct Wb as [Nb Fb]. exists (str "@" ++ b2), (d :: w0'). split; [reflexivity|]. split; [exact W0|]. eapply block_some; [exact Nb|exact Fb|reflexivity|exact Hd].
      - exists [], []. split; [reflexivity|]. split; constructor. }
    destruct (Bf (value_source rs ++ after)) as (bt & w3 & Ebt & W3 & BF).
    destruct c as [[[u u'] c]|], (l_cond r) as [[[u0 u0'] c0]|]; try discriminate.
    - injection Ec as ->. destruct Lc as (U & U' & Nl & Bl). destruct Wc as (Nb & Ns & Na & Nc & _). destruct C as (e & -> & R). destruct (snoc_cases lf Nl) as (l' & b & ->). rewrite Forall_app in Bl. destruct Bl as [Bl' Bb]. inversion Bb as [|? ? Bb' _]; subst.
      assert (K : value_source m ++ given (Some (u, u', c0)) (fun '(w, w', c) => w ++ str "&&" ++ w' ++ c) ++ (l' ++ [b]) ++ str "=>" ++ rt ++ given bl (fun '(b, w) => str "@" ++ b ++ w) ++ value_source rs =
        value_source m ++ (u ++ str "&&" ++ u' ++ (c0 ++ l')) ++ [b] ++ str "=>" ++ rt ++ bt ++ w3 ++ value_source rs).
      { rewrite Ebt. cbn [given]. rewrite <- !app_assoc. reflexivity. }
      rewrite K. apply rule_intro; auto.
      + eapply cond_some; try eassumption.
        * destruct c0; [congruence|discriminate].
        * intros k t' Ek Sk. destruct c0 as [|d c0]; [congruence|]. destruct Sk as [d' B'|a Na'].
          -- injection Ek as -> _. apply Nb. exists d', c0. auto.
          -- cbn in Ek. injection Ek as -> Ek. destruct c0 as [|d c0].
             ++ destruct l' as [|d l']; [cbn in Ek; injection Ek as -> _; destruct Bb' as [X|[X|[X|X]]]; discriminate|]. cbn in Ek. injection Ek as -> _. inversion Bl' as [|? ? X _]; subst. destruct X as [X|[X|[X|X]]]; discriminate.
             ++ cbn in Ek. injection Ek as -> _. apply (Ns c0). reflexivity.
        * intros x y Ex. destruct (arrow_in x y c0 l') as [y' [Z|Z]]; [|exact Ex| |].
          -- intros I. rewrite Forall_forall in Bl'. apply Bl' in I. destruct I as [X|[X|[X|X]]]; discriminate.
          -- exact (Na _ _ Z).
          -- exfalso. subst c0. rewrite <- app_assoc in Ex. apply app_inv_head in Ex. destruct l' as [|d l']; [discriminate|]. injection Ex as -> _. inversion Bl' as [|? ? X _]; subst. destruct X as [X|[X|[X|X]]]; discriminate.
        * reflexivity.
        * apply cond_blanks; assumption.
      + exact (ws_cons _ _ (skip_blank _ Bb') ws_nil).
      + apply end_ok; assumption.
    - subst oe. rewrite Ebt. cbn [given app].
      assert (K : value_source m ++ lf ++ str "=>" ++ rt ++ (bt ++ w3) ++ value_source rs = value_source m ++ [] ++ lf ++ str "=>" ++ rt ++ bt ++ w3 ++ value_source rs) by (rewrite <- !app_assoc; reflexivity).
      rewrite K. apply rule_intro; auto; [constructor|apply end_ok; assumption].
  Qed.

  Lemma laid_source rs xs : Forall (word_rule gp) rs -> Forall2 rule_means rs xs -> forall f, file_words f = map rule_words rs -> laid_file f -> source_form gp (file_source f) xs.
  Proof.
    assert (G : Forall (word_rule gp) rs -> Forall2 rule_means rs xs -> forall rs' e, map rule_words rs' = map rule_words rs -> Forall laid_rule rs' -> Forall (fun r => l_before r <> []) (tl rs') ->
      ws e -> rs' <> [] -> source_form gp (List.concat (map rule_source rs') ++ e) xs).
    { intros F M. revert F. induction M as [|r x rs xs Mr M IH]; intros F; [intros [|r' rs']; [congruence|discriminate]|]. inversion F as [|? ? W F']; subst. specialize (IH F'). pose proof (laid_rule_form r x W Mr) as X.
      intros [|r' rs'] e E L N We _; [discriminate|]. cbn [map] in E. assert (Er : rule_words r' = rule_words r) by congruence. assert (Ers : map rule_words rs' = map rule_words rs) by congruence. clear E. inversion L as [|? ? Lr Lrs]; subst. cbn [tl] in N. cbn [map List.concat].
      destruct rs' as [|r2 rs'].
      - destruct rs; [|discriminate]. inversion M; subst. destruct (X r' e Er Lr) as (t & Et & R).
        { rewrite <- (app_nil_r e). apply ws_apart; [exact We|right; left; reflexivity]. }
        rewrite Et. cbn [map List.concat]. rewrite app_nil_r, <- app_assoc.
        pose proof (source_cons gp (l_before r') t e [] x [] (proj1 Lr) We ltac:(rewrite app_nil_r; exact R) (source_nil gp)) as Sc. rewrite app_nil_r in Sc. exact Sc.
      - inversion N as [|? ? N2 N']; subst. inversion Lrs as [|? ? L2 L']; subst.
        specialize (IH (r2 :: rs') e Ers Lrs N' We ltac:(discriminate)).
        destruct (X r' (List.concat (map rule_source (r2 :: rs')) ++ e) Er Lr) as (t & Et & R).
        { cbn [map List.concat]. unfold rule_source at 1. rewrite <- !app_assoc. apply ws_apart; [exact (proj1 L2)|left; exact N2]. }
        rewrite Et, <- !app_assoc. change (t ++ List.concat (map rule_source (r2 :: rs')) ++ e) with (t ++ [] ++ List.concat (map rule_source (r2 :: rs')) ++ e).
        apply source_cons; [exact (proj1 Lr)|constructor|exact R|exact IH]. }
    intros W M [rs' e] E ((L & We & Z) & N). unfold file_words, file_source in *. cbn [l_rules l_end] in *. destruct rs' as [|r rs'].
    - destruct rs; [|discriminate]. inversion M; subst. rewrite (Z eq_refl). constructor.
    - apply (G W M); auto. discriminate.
  Qed.
  Lemma all_mean rs : Forall (word_rule gp) rs -> exists xs, Forall2 rule_means rs xs.
  Proof. induction 1 as [|r rs W _ [xs M]]; [exists []; constructor|]. destruct (word_rule_means r W) as [x X]. exists (x :: xs). constructor; assumption. Qed.

  (** Every source is some layout of words. *)
  Lemma value_first t x : value_form gp t x -> ~ begins blank t.
  Proof.
    assert (I : forall t z, ident t -> ~ begins blank (t ++ z)).
    { intros u z (c & u' & -> & L & _) (d & w & E & B). injection E as -> _. unfold lower in L. destruct B as [->|[->|[->| ->]]]; discriminate. }
    intros [u v E|b w o opst ops ell el trl tr w' B _ _ _ _ _ _].
    - destruct E as [u e C _|u V|]; [|rewrite <- (app_nil_r u); apply I; exact V|intros (d & w & E & B); injection E as <- _; destruct B as [X|[X|[X|X]]]; discriminate].
      destruct C as [f w a v more w' V _ _ _ _]. apply I. exact V.
    - destruct B as [->|B]; [intros (d & u & E & X); injection E as <- _; destruct X as [X|[X|[X|X]]]; discriminate|]. pose proof B as (c & u & -> & _). unfold if_given. rewrite <- app_assoc. apply I. exact B.
  Qed.
  Lemma value_nonempty t x : value_form gp t x -> t <> [].
  Proof.
    intros [u v E|b w o opst ops ell el trl tr w' B _ _ _ _ _ _].
    - destruct E as [u e [f w a v more w' (c & u' & -> & _) _ _ _ _] _|u (c & u' & -> & _)|]; discriminate.
    - destruct b; discriminate.
  Qed.
  Lemma cond_slashes z q : trimmed (one_line (str "//" ++ z)) q -> exists z', q = str "//" ++ z' /\ ~ In nl z'.
  Proof.
    intros T. destruct (trim_comment (one_line z)) as (z' & E & b & Eb). apply trim_space_spec in T. change (one_line (str "//" ++ z)) with (str "//" ++ one_line z) in T. exists z'. split; [congruence|].
    assert (N : ~ In nl (one_line z)) by (unfold one_line; rewrite in_map_iff; intros (d & X & _); destruct (ascii_dec d nl); [discriminate|congruence]).
    intros I. apply N. rewrite Eb. apply in_app_iff. left. exact I.
  Qed.
  Hypothesis nocom : forall t e, ~ In nl t -> gp (str "//" ++ t) <> Ok e.
  Lemma rule_layout after t x : rule_form gp after t x -> forall w, ws w -> exists r, l_before r = w /\ w ++ t = rule_source r /\ word_rule gp r /\ laid_rule r /\ rule_means r x.
  Proof.
    intros [m vm ct c w1 w2 bt b w3 res vr Vm Cf W1 W2 Bf W3 Vr _] w W.
    destruct (proj1 value_layout _ _ Vm) as (lm & -> & Wm & Lm & Mm). destruct (proj1 value_layout _ _ Vr) as (lr & Er & Wr & Lr & Mr).
    assert (C : exists lc, ct = given lc (fun '(w, w', c) => w ++ str "&&" ++ w' ++ c) /\ opt_all (fun '(_, _, c) => word_cond gp c) lc /\
      opt_all (fun '(w, w', c) => ws1 w /\ ws1 w' /\ w1 <> [] /\ Forall blank w1) lc /\ cond_means lc c).
    { destruct Cf as [|u u' c e b0 after' U U' Nc Ns Na Ea Bb R]; [exists None; cbn; auto|]. exists (Some (u, u', c)). split; [reflexivity|]. split; [|split; [|exists e; auto]].
      - split; [|split; [|split; [|split]]]; auto.
        + intros (d & c' & -> & B). apply (Ns [d] (c' ++ w1 ++ str "=>" ++ w2 ++ bt ++ w3 ++ res ++ after)); [reflexivity|]. constructor. exact B.
        + intros z Ez. subst c. destruct R as (q & T & raw & G & _). destruct (cond_slashes z q T) as (z' & -> & Nz). exact (nocom _ _ Nz G).
        + exists e. exact R.
      - split; [exact U|]. split; [exact U'|]. destruct W1 as [|k z K W1]; [cbn in Ea; injection Ea as <- _; destruct Bb as [X|[X|[X|X]]]; discriminate|].
        destruct K as [d B|a Na'].
        + cbn in Ea. injection Ea as -> Ea. destruct W1 as [|k z K W1]; [split; [discriminate|constructor; auto]|]. exfalso. destruct (skip_first k K) as (d & k' & -> & H). cbn in Ea. injection Ea as -> _. destruct H as [[X|[X|[X|X]]]|X]; discriminate.
        + cbn in Ea. injection Ea as <- _. exfalso. destruct Bb as [X|[X|[X|X]]]; discriminate. }
    destruct C as (lc & -> & Wc & Lc & Mc).
    destruct Bf as [|b d after' Nb Fb Ea Bd].
    - exists (mkL w lm lc w1 (w2 ++ w3) None lr). unfold rule_source, laid_rule, word_rule, rule_means. cbn [l_before l_match l_cond l_left l_right l_block l_result given opt_all r_match r_cond r_block r_result]. rewrite Er.
      split; [reflexivity|]. split; [cbn [app]; rewrite <- !app_assoc; reflexivity|]. repeat split; auto. apply ws_app; assumption.
    - exists (mkL w lm lc w1 w2 (Some (b, w3)) lr). unfold rule_source, laid_rule, word_rule, rule_means. cbn [l_before l_match l_cond l_left l_right l_block l_result given opt_all r_match r_cond r_block r_result]. rewrite Er.
      split; [reflexivity|]. split; [cbn [app]; rewrite <- !app_assoc; reflexivity|]. repeat split; auto. destruct w3 as [|d3 w3].
      + exfalso. apply (value_first _ _ Vr). cbn [app] in Ea. destruct res as [|d' res].
        * destruct (value_nonempty _ _ Vr eq_refl).
        * injection Ea as -> _. exists d, res. split; [reflexivity|]. destruct Bd as [->|[->| ->]]; unfold blank; tauto.
      + exists d3, w3. split; [reflexivity|]. injection Ea as -> _. exact Bd.
  Qed.
  Lemma source_layout t xs : source_form gp t xs -> exists f, file_source f = t /\ Forall (word_rule gp) (l_rules f) /\ laid_rules f /\ Forall2 rule_means (l_rules f) xs.
  Proof.
    induction 1 as [|w t w' rest x xs W W' R S ([rs e] & <- & Wf & (Lf & We & Z) & M)].
    - exists (mkLF [] []). repeat split; constructor.
    - destruct (rule_layout _ _ _ R w W) as (r & _ & Er & Wr & Lr & Mr). cbn [l_rules l_end] in *. unfold file_source. destruct rs as [|r2 rs].
      + rewrite (Z eq_refl). exists (mkLF [r] w'). cbn [l_rules l_end map List.concat]. split; [rewrite app_assoc, Er, !app_nil_r; reflexivity|]. split; [constructor; auto|]. split; [|constructor; auto].
        split; [constructor; auto|]. split; [exact W'|discriminate].
      + inversion Wf as [|? ? Wr2 Wf']; subst. inversion Lf as [|? ? Lr2 Lf']; subst. inversion M as [|? ? ? ? Mr2 M']; subst.
        exists (mkLF (r :: mkL (w' ++ l_before r2) (l_match r2) (l_cond r2) (l_left r2) (l_right r2) (l_block r2) (l_result r2) :: rs) e). cbn [l_rules l_end map List.concat].
        split; [unfold rule_source at 2; cbn [l_before l_match l_cond l_left l_right l_block l_result]; rewrite !app_assoc, Er; rewrite <- !app_assoc; do 2 f_equal; unfold rule_source; rewrite <- !app_assoc; reflexivity|].
        split; [constructor; [exact Wr|]; constructor; [exact Wr2|exact Wf']|]. split; [|constructor; [exact Mr|]; constructor; [exact Mr2|exact M']].
        split; [constructor; [exact Lr|]; constructor; [|exact Lf']|split; [exact We|discriminate]]. destruct Lr2 as (L1 & L2). split; [cbn [l_before]; apply ws_app; assumption|exact L2].
  Qed.
End Layout.
