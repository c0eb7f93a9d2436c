(** C16 in full: the order of operands does not matter, in any s-expression of any file.
    Vocabulary: SpecLayout.v, SpecOrder.v. *)
From Verif Require Import Text GoAst Ast Utf8 GoExpr Parse GoParser SpecPrint SpecUtf8 SpecTrim SpecSyntax SpecLayout SpecOrder SynShape SynFile LayoutFacts PropertiesParse PropertiesLayout.
From Coq Require Import NArith Arith Bool Lia.
Open Scope nat_scope.
Open Scope list_scope.

Section Order.
  Variable gp : text -> res gexpr.
  Lemma reads_same t e e' : reads gp t e -> reads gp t e' -> e = e'.
  Proof. intros (r & H & _ & ->) (r' & H' & _ & ->). congruence. Qed.
  (** Operands and what they mean, one by one. *)
  Inductive op_rel : loperands -> list operand -> Prop :=
  | rel_none : op_rel LNone []
  | rel_more w x rest y ys : one_rel x y -> op_rel rest ys -> op_rel (LMore w x rest) (y :: ys)
  with one_rel : loperand -> operand -> Prop :=
  | rel_type t : t <> [] -> ~ In ">"%char t -> one_rel (LType t) (OType t)
  | rel_auxint t e : t <> [] -> ~ In "]"%char t -> reads gp t e -> one_rel (LAuxInt t) (OAuxInt e)
  | rel_aux t e : t <> [] -> ~ In "}"%char t -> reads gp t e -> one_rel (LAux t) (OAux e)
  | rel_arg v x : means gp v x -> one_rel (LArg v) (OArg x).
  Lemma rel_mean l xs : op_rel l xs -> operands_mean gp l xs.
  Proof.
    induction 1 as [|w x rest y ys O _ IH]; [apply means_none|]. apply means_more; [|exact IH].
    destruct O as [t N I|t e N I R|t e N I R|v x M]; [apply means_type|apply means_auxint|apply means_aux|apply means_arg]; assumption.
  Qed.
  Lemma last_cons {A} (a d : A) l : last (a :: l) d = last l a.
  Proof. revert a d. induction l as [|b l IH]; intros a d; [reflexivity|]. change (last (a :: b :: l) d) with (last (b :: l) d). rewrite !IH. reflexivity. Qed.
  Lemma rel_types l xs : op_rel l xs -> forall d, last (types_of xs) d = match last_of type_text l with Some t => t | None => d end.
  Proof.
    induction 1 as [|w x rest y ys O _ IH]; intros d; [reflexivity|]. cbn [last_of]. fold (last_of type_text rest).
    destruct O as [t N I|t e N I R|t e N I R|v x M]; unfold types_of in *; cbn [flat_map app type_text]; rewrite ?last_cons, IH; destruct (last_of type_text rest); reflexivity.
  Qed.
  Lemma rel_auxints l xs : op_rel l xs -> forall d, match last_of auxint_text l with Some t => exists e, reads gp t e /\ last (map Some (auxints_of xs)) d = Some e | None => last (map Some (auxints_of xs)) d = d end.
  Proof.
    induction 1 as [|w x rest y ys O _ IH]; intros d; [reflexivity|]. cbn [last_of]. fold (last_of auxint_text rest).
    destruct O as [t N I|t e N I R|t e N I R|v x M]; unfold auxints_of in *; cbn [flat_map app auxint_text map]; rewrite ?last_cons;
      (match goal with |- context[last _ ?d0] => specialize (IH d0) end); destruct (last_of auxint_text rest); eauto.
  Qed.
  Lemma rel_auxs l xs : op_rel l xs -> forall d, match last_of aux_text l with Some t => exists e, reads gp t e /\ last (map Some (auxs_of xs)) d = Some e | None => last (map Some (auxs_of xs)) d = d end.
  Proof.
    induction 1 as [|w x rest y ys O _ IH]; intros d; [reflexivity|]. cbn [last_of]. fold (last_of aux_text rest).
    destruct O as [t N I|t e N I R|t e N I R|v x M]; unfold auxs_of in *; cbn [flat_map app aux_text map]; rewrite ?last_cons;
      (match goal with |- context[last _ ?d0] => specialize (IH d0) end); destruct (last_of aux_text rest); eauto.
  Qed.
  Fixpoint arg_values (l : loperands) : list lvalue :=
    match l with LNone => [] | LMore _ x rest => match x with LArg v => [v] | _ => [] end ++ arg_values rest end.
  Lemma args_map l : args_essence l = map value_essence (arg_values l).
  Proof. induction l as [|w x rest IH]; [reflexivity|]. cbn [args_essence arg_values]. rewrite IH. destruct x; reflexivity. Qed.
  Lemma args_word l : word_operands gp l -> Forall (word_value gp) (arg_values l).
  Proof. induction l as [|w x rest IH]; cbn; [constructor|]. intros [Wx Wr]. destruct x; cbn; auto. Qed.
  Lemma rel_exists l : word_operands gp l -> forall vals, Forall2 (means gp) (arg_values l) vals -> exists xs, op_rel l xs /\ args_of xs = vals.
  Proof.
    induction l as [|w x rest IH]; cbn [word_operands arg_values].
    - intros _ vals F. inversion F; subst. exists []. split; [constructor|reflexivity].
    - intros [Wx Wr] vals F. destruct x as [t|t|t|v]; cbn [word_operand app] in *.
      + destruct (IH Wr vals F) as (xs & R & E). exists (OType t :: xs). split; [constructor; [constructor; tauto|exact R]|exact E].
      + destruct Wx as (N & I & e & Re). destruct (IH Wr vals F) as (xs & R & E). exists (OAuxInt e :: xs). split; [constructor; [constructor; assumption|exact R]|exact E].
      + destruct Wx as (N & I & e & Re). destruct (IH Wr vals F) as (xs & R & E). exists (OAux e :: xs). split; [constructor; [constructor; assumption|exact R]|exact E].
      + inversion F as [|? x ? vals' M F']; subst. destruct (IH Wr vals' F') as (xs & R & E). exists (OArg x :: xs). split; [constructor; [constructor; exact M|exact R]|]. unfold args_of in *. cbn. congruence.
  Qed.
  Lemma aux_reads pick l : (pick = auxint_text \/ pick = aux_text) -> word_operands gp l -> forall t, last_of pick l = Some t -> exists e, reads gp t e.
  Proof.
    intros P. induction l as [|w x rest IH]; cbn [word_operands last_of]; [discriminate|]. fold (last_of pick rest). intros [Wx Wr] t E. destruct (last_of pick rest); [injection E as ->; apply IH; auto|].
    destruct P as [-> | ->]; destruct x; cbn in E; try discriminate; injection E as ->; cbn in Wx; tauto.
  Qed.
  Lemma opt_reads (o : option text) : (forall t, o = Some t -> exists e, reads gp t e) -> exists oe, match o with Some t => exists e, reads gp t e /\ oe = Some e | None => oe = @None gexpr end.
  Proof. destruct o as [t|]; intros H; [destruct (H t eq_refl) as [e E]; eauto|eauto]. Qed.

  Lemma essence_means :
    (forall v, word_value gp v -> exists x, forall v', word_value gp v' -> value_essence v' = value_essence v -> means gp v' x) /\
    (forall l, word_operands gp l -> exists vals, forall l', Forall (word_value gp) l' -> map value_essence l' = args_essence l -> Forall2 (means gp) l' vals) /\
    (forall o, word_operand gp o -> exists vals, forall l', Forall (word_value gp) l' -> map value_essence l' = operand_essence o -> Forall2 (means gp) l' vals).
  Proof.
    apply lvalues_ind.
    - intros t [x X]. exists x. intros [t'|] _ E; [|discriminate]. injection E as ->. apply means_atom. exact X.
    - intros b w o ops IH ell trl w' (B & O & W). destruct (IH W) as [vals V].
      destruct (opt_reads (last_of auxint_text ops)) as [oi Oi]; [apply aux_reads; auto|]. destruct (opt_reads (last_of aux_text ops)) as [ox Ox]; [apply aux_reads; auto|].
      exists (SExp (mkSExpr b o (match last_of type_text ops with Some t => t | None => [] end) oi ox vals (present ell) (present trl))).
      intros [t|b2 w2 o2 ops2 ell2 trl2 w2'] W2 E; [discriminate|]. cbn [value_essence] in E. injection E as -> -> Et Ei Ex Ea Ee Er. destruct W2 as (_ & _ & W2).
      destruct (rel_exists ops2 W2 vals) as (xs & R & A); [apply V; [apply args_word; exact W2|rewrite <- args_map; exact Ea]|].
      assert (S : mkSExpr b o (match last_of type_text ops with Some t => t | None => [] end) oi ox vals (present ell) (present trl) = assemble b o xs (set ell2) (set trl2)).
      { unfold assemble. rewrite (rel_types _ _ R), Et, A. change (set ell2) with (present ell2). change (set trl2) with (present trl2). rewrite Ee, Er.
        pose proof (rel_auxints _ _ R None) as Hi. rewrite Ei in Hi. pose proof (rel_auxs _ _ R None) as Hx. rewrite Ex in Hx. f_equal.
        - destruct (last_of auxint_text ops) as [t|]; [destruct Hi as (e & Re & ->), Oi as (e' & Re' & ->); f_equal; exact (reads_same _ _ _ Re' Re)|congruence].
        - destruct (last_of aux_text ops) as [t|]; [destruct Hx as (e & Re & ->), Ox as (e' & Re' & ->); f_equal; exact (reads_same _ _ _ Re' Re)|congruence]. }
      rewrite S. apply means_sexp; [exact B|exact O|apply rel_mean; exact R].
    - intros _. exists []. intros [|v l'] _ E; [constructor|discriminate].
    - intros w x IHx rest IHr [Wx Wr]. destruct (IHx Wx) as [v1 V1]. destruct (IHr Wr) as [v2 V2]. exists (v1 ++ v2). intros l' F E. cbn [args_essence] in E.
      apply map_eq_app in E. destruct E as (l1 & l2 & -> & E1 & E2). rewrite Forall_app in F. destruct F as [F1 F2]. apply Forall2_app; auto.
    - intros t _. exists []. intros [|v l'] _ E; [constructor|discriminate].
    - intros t _. exists []. intros [|v l'] _ E; [constructor|discriminate].
    - intros t _. exists []. intros [|v l'] _ E; [constructor|discriminate].
    - intros v IH W. destruct (IH W) as [x X]. exists [x]. intros l' F E. cbn [operand_essence] in E. destruct l' as [|v' [|]]; try discriminate. injection E as E. inversion F; subst. constructor; [auto|constructor].
  Qed.
  Lemma rule_essence_means r : word_rule gp r -> exists x, forall r', word_rule gp r' -> rule_essence r' = rule_essence r -> rule_means gp r' x.
  Proof.
    intros (Wm & Wc & Wb & Wr). destruct (proj1 essence_means _ Wm) as [vm Vm]. destruct (proj1 essence_means _ Wr) as [vr Vr].
    assert (C : exists oe, cond_means gp (l_cond r) oe). { unfold cond_means. destruct (l_cond r) as [[[u u'] c]|]; [|eauto]. cbn in Wc. destruct Wc as (_ & _ & _ & _ & e & R). eauto. }
    destruct C as [oe C]. exists (mkRule vm oe (match l_block r with Some (b, _) => b | None => [] end) vr). intros r' (Wm' & Wc' & Wb' & Wr') E. unfold rule_essence in E. injection E as Em Ec Eb Er. repeat split; cbn [r_match r_cond r_block r_result]; auto.
    - unfold cond_means in *. destruct (l_cond r') as [[[u u'] c]|], (l_cond r) as [[[u0 u0'] c0]|]; try discriminate; [|exact C]. injection Ec as ->. exact C.
    - destruct (l_block r') as [[b z]|], (l_block r) as [[b0 z0]|]; try discriminate; [|reflexivity]. injection Eb as ->. reflexivity.
  Qed.
  Lemma file_essence rs : Forall (word_rule gp) rs -> exists xs, forall rs', Forall (word_rule gp) rs' -> map rule_essence rs' = map rule_essence rs -> Forall2 (rule_means gp) rs' xs.
  Proof.
    induction 1 as [|r rs W _ [xs X]]; [exists []; intros [|] _ E; [constructor|discriminate]|]. destruct (rule_essence_means r W) as [x H]. exists (x :: xs).
    intros [|r' rs'] F E; [discriminate|]. inversion F; subst. cbn [map] in E. constructor; [apply H; [assumption|congruence]|apply X; [assumption|congruence]].
  Qed.
End Order.

(** Two files that agree in what counts, in every s-expression of every rule, are read as
    the same rules; however their operands are ordered and laid out, and whatever types,
    auxints and auxes are overridden by later ones. *)
Theorem C16_in_any_file :
  forall gp f, Forall (word_rule gp) (l_rules f) ->
    exists rs, forall fn f', Forall (word_rule gp) (l_rules f') -> map rule_essence (l_rules f') = map rule_essence (l_rules f) ->
      laid_file f' -> utf8 (file_source f') -> Parse gp fn (file_source f') = Ok (mkFile rs).
Proof.
  intros gp f W. destruct (file_essence gp _ W) as [xs X]. exists xs. intros fn f' W' E L U. apply parse_source. split; [exact U|].
  exact (laid_source gp (l_rules f') xs W' (X _ W' E) f' eq_refl L).
Qed.
Print Assumptions C16_in_any_file.

(** Operands of an inner and an outer s-expression in another order, one type overridden. *)
Definition ex_sorted : lfile :=
  mkLF [mkL [] (LSexp [] [] (Opcode (str "A")) (LMore [sp] (LType (str "t")) (LMore [sp] (LArg (LSexp [] [] (Opcode (str "B")) (LMore [sp] (LType (str "u")) (LMore [sp] (LArg (LAtom (str "x"))) LNone)) None None [])) LNone)) None None [])
    None [sp] [sp] None (LAtom (str "x"))] [].
Definition ex_mixed : lfile :=
  mkLF [mkL [] (LSexp [] [] (Opcode (str "A")) (LMore [sp] (LArg (LSexp [] [] (Opcode (str "B")) (LMore [sp] (LType (str "v")) (LMore [sp] (LArg (LAtom (str "x"))) (LMore [sp] (LType (str "u")) LNone))) None None [])) (LMore [sp] (LType (str "t")) LNone)) None None [])
    None [sp] [sp] None (LAtom (str "x"))] [].
Example C16_in_any_file_example :
  file_source ex_sorted = str "(A <t> (B <u> x)) => x" /\ file_source ex_mixed = str "(A (B <v> x <u>) <t>) => x" /\
  map rule_essence (l_rules ex_mixed) = map rule_essence (l_rules ex_sorted) /\
  Forall (word_rule ParseExpr) (l_rules ex_sorted) /\ Forall (word_rule ParseExpr) (l_rules ex_mixed) /\ laid_file ex_mixed /\ laid_file ex_sorted.
Proof.
  assert (Wsp : ws [sp]) by (apply (ws_cons [sp] []); [constructor; unfold blank; auto|constructor]). assert (W1 : ws1 [sp]) by (split; [exact Wsp|discriminate]). assert (W0 : ws []) by constructor.
  assert (X : exists y, expr_form ParseExpr (str "x") y) by (eexists; apply expr_var; exists "x"%char, []; repeat split; constructor).
  assert (O : forall c, word_char c -> word [c]) by (intros c H; split; [discriminate|constructor; [exact H|constructor]]).
  assert (OA : word (str "A")) by (apply O; unfold word_char; cbn; tauto). assert (OB : word (str "B")) by (apply O; unfold word_char; cbn; tauto).
  split; [reflexivity|]. split; [reflexivity|]. split; [reflexivity|].
  split; [|split; [|split]].
  - constructor; [|constructor]. unfold word_rule. cbn -[str word]. repeat split; auto; try discriminate; try apply OA; try apply OB; cbn; intuition discriminate.
  - constructor; [|constructor]. unfold word_rule. cbn -[str word]. repeat split; auto; try discriminate; try apply OA; try apply OB; cbn; intuition discriminate.
  - split; [split; [constructor; [|constructor]|split; [exact W0|discriminate]]|constructor]. unfold laid_rule. cbn -[ws1]. tauto.
  - split; [split; [constructor; [|constructor]|split; [exact W0|discriminate]]|constructor]. unfold laid_rule. cbn -[ws1]. tauto.
Qed.
