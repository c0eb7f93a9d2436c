(** S-expressions, operands and values: the grammar rules Value, SExpr and Operand. *)
From Verif Require Import Text GoAst Ast Utf8 GoExpr Peg Grammar SpecPrint SpecSyntax PegPoints PegSem SynLex SynWords SynExpr.
From Coq Require Import NArith Arith Bool Lia.

Lemma last_snoc_cons {X} (x : X) l d : last (x :: l) d = last l x.
Proof. revert x d. induction l as [|y l IH]; intros x d; [reflexivity|]. change (last (x :: y :: l) d) with (last (y :: l) d). rewrite (IH y d), (IH y x). reflexivity. Qed.

(** * What the actions make of the operands *)
Definition operand_val (x : operand) : val :=
  match x with OType t => VType t | OAuxInt e => VAuxInt e | OAux e => VAux e | OArg v => VValue v end.
Definition item_of (x : operand) (v : val) : Prop := exists wv, v = VSlice [wv; operand_val x].
Lemma on_operands_ok k ops vs : Forall2 item_of ops vs -> forall s, on_operands vs s k =
  k (mkSExpr (s_binding s) (s_op s) (last (types_of ops) (s_type s)) (last (map Some (auxints_of ops)) (s_auxint s))
       (last (map Some (auxs_of ops)) (s_aux s)) (s_args s ++ args_of ops) (s_ellipsis s) (s_trailing s)).
Proof.
  induction 1 as [|x v ops vs [wv ->] F IH]; intros s; cbn [on_operands].
  - cbn. rewrite app_nil_r. destruct s; reflexivity.
  - cbn [elem nth_error]. destruct x; cbn [operand_val]; rewrite IH; cbn [s_binding s_op s_type s_auxint s_aux s_args s_ellipsis s_trailing].
    + change (types_of (OType t :: ops)) with (t :: types_of ops). rewrite last_snoc_cons. reflexivity.
    + change (auxints_of (OAuxInt e :: ops)) with (e :: auxints_of ops). cbn [map]. rewrite last_snoc_cons. reflexivity.
    + change (auxs_of (OAux e :: ops)) with (e :: auxs_of ops). cbn [map]. rewrite last_snoc_cons. reflexivity.
    + change (args_of (OArg v :: ops)) with (v :: args_of ops). rewrite <- app_assoc. reflexivity.
Qed.
Definition flag_val (b : bool) (v : val) : Prop := if b then exists l, v = VSlice l else v = VNil.
Definition binding_val (b : text) (v : val) : Prop :=
  (b = [] /\ v = VNil) \/ (ident b /\ exists w, v = VSlice [VValue (Var b); w]).
Lemma sexpr_action bv b o ops vs ev el tv tr : binding_val b bv -> op_wf o -> Forall2 item_of ops vs -> flag_val el ev -> flag_val tr tv ->
  on_sexpr_action bv (op_val o) (VSlice vs) ev tv = AOk (VValue (SExp (assemble b o ops el tr))).
Proof.
  intros B W F E T. unfold on_sexpr_action.
  assert (R : forall b0, on_operands vs (mkSExpr b0 o [] None None [] false false)
      (fun s => AOk (VValue (SExp (mkSExpr (s_binding s) (s_op s) (s_type s) (s_auxint s) (s_aux s)
              (s_args s) (match ev with VNil => false | _ => true end)
              (match tv with VNil => false | _ => true end))))) = AOk (VValue (SExp (assemble b0 o ops el tr)))).
  { intros b0. rewrite (on_operands_ok _ ops vs F). cbn [s_binding s_op s_type s_auxint s_aux s_args s_ellipsis s_trailing app].
    unfold assemble. do 4 f_equal; [destruct el; cbn in E; [destruct E as [l ->]|subst]|destruct tr; cbn in T; [destruct T as [l ->]|subst]]; reflexivity. }
  destruct B as [[-> ->]|[_ [w ->]]]; destruct o; try contradiction; cbn [op_val elem nth_error]; apply R.
Qed.

Section Values.
  Variable gp : text -> res gexpr.
  Notation RUN := (run_action gp).
  Notation S := (sem RUN the_grammar).
  Notation SQ := (sem_seq RUN the_grammar).
  Notation SR := (sem_rep RUN the_grammar).
  Notation Expr := (PRef (str "Expr")).
  Notation Call := (PRef (str "Call")).
  Notation Value := (PRef (str "Value")).
  Notation SExpr := (PRef (str "SExpr")).
  Notation Operand := (PRef (str "Operand")).

  Definition g_binding : pexp := POpt (PSeq [PAction onSExpr6 (PSeq g_ident); lit ":" """:"""]).
  Definition g_operand : pexp := PSeq [g_ws1; Operand].
  Definition g_flag (m want : string) : pexp := POpt (PSeq [g_ws1; lit m want]).
  Definition g_type : pexp := PAction onOperand2 (PSeq [lit "<" """<"""; PPlus (PClass (str "[^>]") [62%N] [] true); lit ">" """>"""]).
  Definition g_auxint : pexp := PAction onOperand8 (PSeq [lit "[" """["""; PPlus (PClass (str "[^]]") [93%N] [] true); lit "]" """]"""]).
  Definition g_aux : pexp := PAction onOperand14 (PSeq [lit "{" """{"""; PPlus (PClass (str "[^}]") [125%N] [] true); lit "}" """}"""]).
  Lemma operand_eq : g_Operand = PChoice [g_type; g_auxint; g_aux; Value]. Proof. reflexivity. Qed.
  Lemma sexpr_eq : g_SExpr = PAction onSExpr1 (PSeq [PLabel (str "binding") g_binding; lit "(" """("""; g_ws0;
    PLabel (str "op") g_Op; PLabel (str "operands") (PStar g_operand); PLabel (str "ellipsis") (g_flag "..." """...""");
    PLabel (str "trailing") (g_flag "___" """___"""); g_ws0; lit ")" """)"""]).
  Proof. reflexivity. Qed.

  (** ** Bindings *)
  Lemma name_ok b r en : ident b -> not_next word_char r -> S (PAction onSExpr6 (PSeq g_ident)) en (b ++ r) (Good (VValue (Var b)) en r).
  Proof.
    intros Hb N. destruct (ident_seq gp b r Hb N) as (v1 & v2 & Id). eapply sem_action.
    - apply sem_sequence. rewrite <- (app_nil_r g_ident). apply Id. apply seq_nil.
    - rewrite consumed_app. reflexivity.
  Qed.
  Lemma name_bad t en : not_next lower t -> S (PAction onSExpr6 (PSeq g_ident)) en t Fail.
  Proof. intros N. apply sem_action_fail. apply sem_sequence. apply seq_fail. apply lower_bad. exact N. Qed.
  Lemma binding_ok b r : b = [] \/ ident b ->
    exists v, binding_val b v /\ S g_binding [] (if_given b (fun b => b ++ str ":") ++ str "(" ++ r) (Good v [] (str "(" ++ r)).
  Proof.
    intros [-> |Hb].
    - exists VNil. split; [left; auto|]. apply sem_opt_fail. apply sem_sequence. apply seq_fail. apply name_bad. nextchar.
    - assert (Ne : b <> []) by (destruct Hb as (c & t & -> & _); discriminate).
      destruct b as [|c b]; [contradiction|]. cbn [if_given]. eexists. split; [right; split; [exact Hb|]; eexists; reflexivity|].
      eapply sem_opt. rewrite <- !app_assoc. apply sem_sequence.
      eapply seq_cons; [apply name_ok; [exact Hb|nextchar]|]. eapply seq_cons; [apply lit_ok|]. apply seq_nil.
  Qed.
  Lemma binding_inv t v en en' r : S g_binding en t (Good v en' r) ->
    exists b, t = if_given b (fun b => b ++ str ":") ++ r /\ (b = [] \/ ident b) /\ binding_val b v /\ en' = en.
  Proof.
    intros H. inversion H as [| | | | | | | |? ? ? ? ? ? A|? ? ? A| | | | | | | | | | |]; subst.
    - apply sequence_inv in A. apply seq_inv in A. destruct A as (v1 & en1 & r1 & M1 & A).
      apply seq_inv in A. destruct A as (v2 & en2 & r2 & M2 & A). apply seq_end in A. destruct A as (-> & -> & ->).
      apply lit_inv in M2. destruct M2 as [-> ->]. inversion M1 as [? ? ? ? ? ? ? ? B R| | | | | | | | | | | | | | | | | | | |]; subst.
      apply sequence_inv in B. rewrite <- (app_nil_r g_ident) in B. apply ident_inv in B. destruct B as (x & t1 & u1 & u2 & -> & Hx & N & M).
      apply seq_end in M. destruct M as (_ & _ & <-). rewrite consumed_app in R. cbn in R. inversion R; subst.
      exists x. split; [|split; [auto|]].
      + destruct Hx as (c & t' & -> & _). cbn [if_given]. rewrite <- app_assoc. reflexivity.
      + split; [|reflexivity]. right. split; [exact Hx|]. eexists. reflexivity.
    - exists []. split; [reflexivity|]. split; [auto|]. split; [left; auto|reflexivity].
  Qed.

  (** ** Flags *)
  Lemma flag_ok m want x el r : flag_form (str m) x el -> no_skip (str m ++ r) -> S (g_flag m want) [] r (Good VNil [] r) ->
    exists v, flag_val el v /\ S (g_flag m want) [] (x ++ r) (Good v [] r).
  Proof.
    intros [|w W] N F.
    - exists VNil. split; [reflexivity|exact F].
    - rewrite <- app_assoc. destruct (ws1_ok gp w (str m ++ r) [] W N) as [v G].
      eexists. split; [eexists; reflexivity|]. eapply sem_opt. apply sem_sequence.
      eapply seq_cons; [exact G|]. eapply seq_cons; [apply lit_ok|]. apply seq_nil.
  Qed.
  Lemma flag_absent m want w x en : ws w -> no_skip x -> (forall y, x <> str m ++ y) -> S (g_flag m want) en (w ++ x) (Good VNil en (w ++ x)).
  Proof.
    intros W N X. apply sem_opt_fail. apply sem_sequence. destruct w as [|c w].
    - apply seq_fail. apply ws1_bad. exact N.
    - assert (W1 : ws1 (c :: w)) by (split; [exact W|discriminate]). destruct (ws1_ok gp (c :: w) x [] W1 N) as [v G].
      eapply seq_cons; [exact G|]. apply seq_fail. apply lit_bad. exact X.
  Qed.
  Lemma flag_inv m want t v en en' r : S (g_flag m want) en t (Good v en' r) ->
    exists x el, t = x ++ r /\ flag_form (str m) x el /\ flag_val el v /\ en' = en.
  Proof.
    intros H. inversion H as [| | | | | | | |? ? ? ? ? ? A|? ? ? A| | | | | | | | | | |]; subst.
    - apply sequence_inv in A. apply seq_inv in A. destruct A as (v1 & en1 & r1 & M1 & A).
      apply seq_inv in A. destruct A as (v2 & en2 & r2 & M2 & A). apply seq_end in A. destruct A as (-> & -> & ->).
      apply ws1_inv in M1. destruct M1 as (w & -> & W & _ & ->). apply lit_inv in M2. destruct M2 as [-> ->].
      exists (w ++ str m), true. rewrite <- app_assoc. split; [reflexivity|]. split; [constructor; exact W|]. split; [eexists; reflexivity|reflexivity].
    - exists [], false. repeat split; constructor.
  Qed.

  (** ** Bracketed operands *)
  Lemma bracket_ok name a o o1 c c1 c2 k r en res : (byte_val c < 128)%N -> str c1 = [c] -> k <> [] -> ~ In c k ->
    RUN a (str o ++ k ++ str c1) en = AOk res ->
    S (PAction a (PSeq [lit o o1; PPlus (PClass name [byte_val c] [] true); lit c1 c2])) en
      (str o ++ k ++ str c1 ++ r) (Good res en r).
  Proof.
    intros B E Ne N R. destruct (inverted_ok gp name c k (str c1 ++ r) B N) as [vs [P X]]; [right; rewrite E; cbn; eauto|].
    destruct vs as [|v vs]; [destruct Ne; apply X; reflexivity|].
    eapply sem_action.
    - apply sem_sequence. eapply seq_cons; [apply lit_ok|]. eapply seq_cons; [apply sem_plus; exact P|].
      eapply seq_cons; [apply lit_ok|]. apply seq_nil.
    - replace (str o ++ k ++ str c1 ++ r) with ((str o ++ k ++ str c1) ++ r) by (rewrite <- !app_assoc; reflexivity).
      rewrite consumed_app. exact R.
  Qed.
  Lemma bracket_inv name a o o1 c c1 c2 t v en en' r : (byte_val c < 128)%N ->
    S (PAction a (PSeq [lit o o1; PPlus (PClass name [byte_val c] [] true); lit c1 c2])) en t (Good v en' r) ->
    exists k, t = str o ++ k ++ str c1 ++ r /\ k <> [] /\ ~ In c k /\ RUN a (str o ++ k ++ str c1) en' = AOk v /\ en' = en.
  Proof.
    intros B H. inversion H as [? ? ? ? ? ? ? ? A R| | | | | | | | | | | | | | | | | | | |]; subst. apply sequence_inv in A.
    apply seq_inv in A. destruct A as (v1 & en1 & r1 & M1 & M). apply seq_inv in M. destruct M as (v2 & en2 & r2 & M2 & M).
    apply seq_inv in M. destruct M as (v3 & en3 & r3 & M3 & M). apply seq_end in M. destruct M as (_ & -> & ->).
    apply lit_inv in M1. destruct M1 as [-> ->]. inversion M2 as [| | | | | | | | | | |? ? ? ? ? ? P| | | | | | | | |]; subst.
    apply inverted_inv in P; [|exact B]. destruct P as (k & -> & N & _ & X). apply lit_inv in M3. destruct M3 as [-> ->].
    exists k. split; [reflexivity|]. split; [intros ->; destruct X as [_ X]; discriminate X; reflexivity|]. split; [exact N|].
    replace (str o ++ k ++ str c1 ++ r3) with ((str o ++ k ++ str c1) ++ r3) in R by (rewrite <- !app_assoc; reflexivity).
    rewrite consumed_app in R. auto.
  Qed.
  Lemma bracket_bad a c s o1 es t en : not_next (eq c) t -> S (PAction a (PSeq (lit (String c s) o1 :: es))) en t Fail.
  Proof. intros N. apply sem_action_fail. apply sem_sequence. apply seq_fail. apply lit_bad1. exact N. Qed.
  Lemma inner_text o c1 k : List.length (str o) = 1%nat -> List.length (str c1) = 1%nat -> inner (str o ++ k ++ str c1) = k.
  Proof.
    intros A B. destruct (str o) as [|x [|]]; try discriminate A. destruct (str c1) as [|y [|]]; try discriminate B.
    unfold inner. cbn [app tl]. apply removelast_last.
  Qed.

  (** ** Failing attempts *)
  Lemma sexpr_fail t en : not_next (eq "("%char) t -> (forall b r, ident b -> t <> b ++ str ":" ++ r) ->
    not_next lower t \/ (exists b r, t = b ++ r /\ ident b /\ not_next word_char r) -> S SExpr en t Fail.
  Proof.
    intros P B L. eapply sem_ref_fail; [reflexivity|]. apply sem_action_fail. apply sem_sequence.
    eapply seq_cons; [eapply sem_label; apply sem_opt_fail|].
    - apply sem_sequence. destruct L as [L|(b & r & -> & Hb & N)]; [apply seq_fail; apply name_bad; exact L|].
      eapply seq_cons; [apply name_ok; assumption|]. apply seq_fail. apply lit_bad. intros y ->. apply (B b y Hb). reflexivity.
    - apply seq_fail. apply lit_bad1. exact P.
  Qed.
  Lemma sexpr_fail_first t en : not_next (eq "("%char) t -> not_next lower t -> S SExpr en t Fail.
  Proof.
    intros P L. apply sexpr_fail; [exact P| |left; exact L]. intros b r (c & b' & -> & Lc & _) ->. apply (L c (b' ++ str ":" ++ r)); [reflexivity|exact Lc].
  Qed.
  Lemma ident_colon b x r y : ident b -> ident x -> not_next word_char r -> not_next (eq ":"%char) r -> x ++ r <> b ++ str ":" ++ y.
  Proof.
    intros Hb Hx N C E.
    assert (Q : forall x b, Forall word_char x -> Forall word_char b -> x ++ r <> b ++ str ":" ++ y).
    { clear b x Hb Hx E. induction x as [|c x IH]; intros b Fx Fb E.
      - destruct b as [|d b]; cbn [app] in E.
        + apply (C ":"%char y); [exact E|reflexivity].
        + inversion Fb; subst. apply (N d (b ++ str ":" ++ y)); [reflexivity|assumption].
      - inversion Fx; subst. destruct b as [|d b]; cbn in E; inversion E; subst.
        + match goal with H : word_char ":"%char |- _ => revert H; notword end.
        + inversion Fb; subst. eapply IH; eauto. }
    apply ident_word in Hb, Hx. apply (Q x b); [apply Hx|apply Hb|exact E].
  Qed.
  Lemma sexpr_fail_ident x r en : ident x -> not_next word_char r -> not_next (eq ":"%char) r -> S SExpr en (x ++ r) Fail.
  Proof.
    intros Hx N C. apply sexpr_fail.
    - destruct Hx as (c & t & -> & L & _). intros d t' E <-. inversion E; subst. discriminate.
    - intros b y Hb. apply ident_colon; assumption.
    - right. eauto.
  Qed.

  (** ** Values *)
  Lemma value_of_expr t v r en : S SExpr [] (t ++ r) Fail -> S Expr [] (t ++ r) (Good (VValue v) [] r) -> S Value en (t ++ r) (Good (VValue v) en r).
  Proof.
    intros F G. eapply sem_ref; [reflexivity|]. apply sem_choice. apply alts_fail; [exact F|]. eapply alts_good. exact G.
  Qed.
  (** Where a value may end. *)
  Definition ends (t r : text) : Prop := expr_end gp t r /\ (ident t -> not_next (eq ":"%char) r).
  Lemma value_expr_ok t v r en : expr_form gp t v -> ends t r -> S Value en (t ++ r) (Good (VValue v) en r).
  Proof.
    intros E [[A B] C]. destruct E as [t e Cf R|x Hx|].
    - apply value_of_expr.
      + destruct Cf as [f w a v more w' Hf _ _ _ _]. rewrite <- !app_assoc. apply sexpr_fail_ident; [exact Hf|nextchar|nextchar].
      + eapply sem_ref; [reflexivity|]. apply sem_choice. eapply alts_good. apply (proj1 (proj2 (exprs_complete gp))); assumption.
    - destruct (A Hx) as [A1 A2]. apply value_of_expr; [apply sexpr_fail_ident; auto|]. apply expr_var_ok; assumption.
    - apply value_of_expr; [apply sexpr_fail_first; nextchar|]. apply expr_hole_ok. apply B. reflexivity.
  Qed.
  Lemma ends_of t r : op_end r -> not_next (eq ":"%char) r -> ends t r.
  Proof.
    intros O C. split; [|auto]. split.
    - intros Hx. split; [apply O|apply call_bad_paren; assumption].
    - intros _ c t' -> <-. destruct O as [A _]. apply (A _ _ eq_refl). left. reflexivity.
  Qed.

  (** ** The end of an s-expression *)
  (** White space and then "...", "___" or ")". *)
  Definition tail_form (t : text) : Prop := exists w x, t = w ++ x /\ ws w /\
    ((exists y, x = str "..." ++ y) \/ (exists y, x = str "___" ++ y) \/ (exists y, x = str ")" ++ y)).
  Lemma tail_char x : (exists y, x = str "..." ++ y) \/ (exists y, x = str "___" ++ y) \/ (exists y, x = str ")" ++ y) ->
    no_skip x /\ not_next (eq ":"%char) x.
  Proof.
    intros [[y ->]|[[y ->]|[y ->]]]; (split; [apply no_skip_char; [intros [H|[H|[H|H]]]; discriminate|discriminate]|nextchar]).
  Qed.
  (** What comes after an opcode or an operand. *)
  Definition goes_on (t : text) : Prop := (exists w x, t = w ++ x /\ ws1 w) \/ exists y, t = str ")" ++ y.
  Lemma goes_on_end t : goes_on t -> op_end t /\ not_next (eq ":"%char) t.
  Proof.
    intros [(w & x & -> & W & Ne)|[y ->]].
    - destruct w as [|c w]; [contradiction|]. apply ws_first in W.
      split; [split|]; intros d t' E; inversion E; subst.
      + apply blank_not_word. exact W.
      + intros <-. destruct W as [[H|[H|[H|H]]]|H]; discriminate.
      + intros <-. destruct W as [[H|[H|[H|H]]]|H]; discriminate.
    - split; [split|]; nextchar.
  Qed.

  Lemma operand_bad t en : not_next (fun c => c = "<"%char \/ c = "["%char \/ c = "{"%char \/ c = "("%char \/ lower c) t ->
    not_next (eq "_"%char) t \/ (exists y, t = str "__" ++ y) -> S Operand en t Fail.
  Proof.
    intros N H. eapply sem_ref_fail; [reflexivity|]. rewrite operand_eq. apply sem_choice.
    apply alts_fail; [apply bracket_bad; intros c t' E <-; apply (N _ _ E); auto|].
    apply alts_fail; [apply bracket_bad; intros c t' E <-; apply (N _ _ E); auto|].
    apply alts_fail; [apply bracket_bad; intros c t' E <-; apply (N _ _ E); auto|].
    apply alts_fail; [|constructor].
    assert (NL : not_next lower t) by (intros c t' E L; apply (N _ _ E); auto).
    assert (NP : not_next (eq "("%char) t) by (intros c t' E <-; apply (N _ _ E); auto 6).
    eapply sem_ref_fail; [reflexivity|]. apply sem_choice. apply alts_fail; [apply sexpr_fail_first; assumption|].
    apply alts_fail; [|constructor]. destruct H as [H|[y ->]]; [apply expr_bad; assumption|].
    eapply sem_ref_fail; [reflexivity|]. apply sem_choice. apply alts_fail; [apply call_bad_first; exact NL|].
    apply alts_fail; [apply var_bad; exact NL|]. apply alts_fail; [|constructor].
    apply sem_action_fail. apply sem_sequence. eapply seq_cons; [apply (lit_ok gp "_" _ _ (str "_" ++ y))|].
    apply seq_fail. eapply sem_not. apply (lit_ok gp "_" _ _ y).
  Qed.
  Lemma tail_no_operand t : tail_form t -> S g_operand [] t Fail.
  Proof.
    intros (w & x & -> & W & X). destruct (tail_char x X) as [N _]. apply sem_sequence. destruct w as [|c w].
    - apply seq_fail. apply ws1_bad. exact N.
    - assert (W1 : ws1 (c :: w)) by (split; [exact W|discriminate]). destruct (ws1_ok gp (c :: w) x [] W1 N) as [v G].
      eapply seq_cons; [exact G|]. apply seq_fail. apply operand_bad.
      + destruct X as [[y ->]|[[y ->]|[y ->]]]; intros d t' E; inversion E; subst; intros [H|[H|[H|[H|H]]]]; discriminate.
      + destruct X as [[y ->]|[[y ->]|[y ->]]]; [left; nextchar|right; exists (str "_" ++ y); reflexivity|left; nextchar].
  Qed.
  Lemma tail_goes_on t : tail_form t -> (exists w x, t = w ++ x /\ ws1 w) \/ (exists y, t = str "..." ++ y) \/ (exists y, t = str "___" ++ y) \/ (exists y, t = str ")" ++ y).
  Proof.
    intros (w & x & -> & W & X). destruct w as [|c w]; [right; exact X|]. left. exists (c :: w), x. split; [reflexivity|]. split; [exact W|discriminate].
  Qed.
  Lemma close_form w r : ws w -> tail_form (w ++ str ")" ++ r).
  Proof. intros W. exists w, (str ")" ++ r). eauto 6. Qed.
  Lemma flags_form m x el r : (m = str "..." \/ m = str "___") -> flag_form m x el -> tail_form r -> tail_form (x ++ r).
  Proof.
    intros Hm [|w [W Ne]] T; [exact T|]. exists w, (m ++ r). rewrite <- app_assoc. split; [reflexivity|]. split; [exact W|].
    destruct Hm as [-> | ->]; eauto.
  Qed.
  Lemma flags_goes_on m x el r : flag_form m x el -> goes_on r -> goes_on (x ++ r).
  Proof. intros [|w W] T; [exact T|]. left. exists w, (m ++ r). rewrite <- app_assoc. auto. Qed.
  Lemma close_goes_on w r : ws w -> goes_on (w ++ str ")" ++ r).
  Proof.
    intros W. destruct w as [|c w]; [right; exists r; reflexivity|]. left. exists (c :: w), (str ")" ++ r). split; [reflexivity|]. split; [exact W|discriminate].
  Qed.
  Lemma operands_goes_on t ops r : operands_form gp t ops -> goes_on r -> goes_on (t ++ r).
  Proof. intros [|w t' x rest xs W _ _] G; [exact G|]. left. exists w, (t' ++ rest ++ r). rewrite <- !app_assoc. auto. Qed.

  (** The first character of a value, of an operand. *)
  Lemma value_first t v : value_form gp t v -> exists c t', t = c :: t' /\ (lower c \/ c = "_"%char \/ c = "("%char).
  Proof.
    intros [t0 v0 E|b w o opst ops ell el trl tr w' Hb _ _ _ _ _ _].
    - destruct (expr_first gp t0 v0 E) as (c & t' & -> & H). exists c, t'. split; [reflexivity|tauto].
    - destruct b as [|c b]; cbn [if_given app]; [eexists "("%char, _; split; [reflexivity|auto]|]. destruct Hb as [Hb|(d & t' & Hb & L & _)]; [discriminate|].
      inversion Hb; subst. eexists d, _; split; [reflexivity|auto].
  Qed.
  Lemma first_no_skip c t : lower c \/ c = "_"%char \/ c = "("%char \/ c = "<"%char \/ c = "["%char \/ c = "{"%char -> no_skip (c :: t).
  Proof.
    intros [L|[-> | [-> | [-> | [-> | ->]]]]]; try (apply no_skip_char; [intros [H|[H|[H|H]]]; discriminate|discriminate]).
    apply lower_no_skip. auto.
  Qed.
  Lemma value_no_skip t v r : value_form gp t v -> no_skip (t ++ r).
  Proof. intros V. destruct (value_first t v V) as (c & t' & -> & H). apply first_no_skip. tauto. Qed.
  Lemma operand_no_skip t x r : operand_form gp t x -> no_skip (t ++ r).
  Proof.
    intros [t0 _ _|t0 e _ _ _|t0 e _ _ _|t0 v V]; [..|eapply value_no_skip; eauto]; rewrite <- !app_assoc; apply first_no_skip; auto 7.
  Qed.
  Lemma word_no_skip o r : op_wf o -> no_skip (opcode_text o ++ r).
  Proof.
    intros W. assert (X : exists c t, opcode_text o = c :: t /\ (word_char c \/ c = "("%char)).
    { assert (Q : forall k, word k -> exists c t, k = c :: t /\ word_char c).
      { intros k [Ne F]. destruct k as [|c k]; [contradiction|]. inversion F; eauto. }
      destruct o as [c|ps|]; [|destruct W as (Ne & F & _)|contradiction].
      - destruct (Q c W) as (d & t & -> & H). exists d, t. split; [reflexivity|auto].
      - destruct ps as [|p ps]; [contradiction|]. inversion F as [|? ? Wp _]; subst. cbn [opcode_text map List.concat].
        destruct p as [c|l|]; [| |contradiction].
        + destruct (Q c Wp) as (d & t & -> & H). eexists d, _. split; [reflexivity|auto].
        + destruct Wp as [L _]. destruct l; [cbn in L; lia|]. eexists "("%char, _. split; [reflexivity|auto]. }
    destruct X as (c & t & -> & H). destruct H as [H| ->]; [|apply first_no_skip; auto].
    apply no_skip_char.
    - intros B. apply (blank_not_word c); [auto|exact H].
    - intros ->. apply (blank_not_word "/"%char); [auto|exact H].
  Qed.

  (** ** Written forms are matched *)
  Lemma values_complete :
    (forall t v, value_form gp t v -> forall r en, ends t r -> S Value en (t ++ r) (Good (VValue v) en r)) /\
    (forall t ops, operands_form gp t ops -> forall r, tail_form r -> goes_on r ->
       exists vs, Forall2 item_of ops vs /\ SR g_operand (t ++ r) vs r) /\
    (forall t x, operand_form gp t x -> forall r, goes_on r -> S Operand [] (t ++ r) (Good (operand_val x) [] r)).
  Proof.
    apply value_forms_ind.
    - intros t v E r en H. apply value_expr_ok; assumption.
    - intros b w o opst ops ell el trl tr w' Hb W Ho Fo IHo Fe Ft W' r en _.
      set (r4 := w' ++ str ")" ++ r). set (r3 := trl ++ r4). set (r2 := ell ++ r3). set (r1 := opst ++ r2). set (r0 := opcode_text o ++ r1).
      assert (T4 : tail_form r4) by (apply close_form; exact W').
      assert (T3 : tail_form r3) by (eapply flags_form; eauto).
      assert (T2 : tail_form r2) by (eapply (flags_form (str "...")); [left; reflexivity|exact Fe|exact T3]).
      assert (G4 : goes_on r4) by (apply close_goes_on; exact W').
      assert (G3 : goes_on r3) by (eapply flags_goes_on; eauto).
      assert (G2 : goes_on r2) by (eapply flags_goes_on; eauto).
      assert (G1 : goes_on r1) by (eapply operands_goes_on; eauto).
      destruct (IHo r2 T2 G2) as (vs & Fvs & Rep).
      destruct (goes_on_end r1 G1) as [O1 _]. destruct (op_ok gp o r1 Ho O1) as [eno Op].
      destruct (ws0_ok gp w r0 [] W (word_no_skip o r1 Ho)) as [wv Ws].
      destruct (binding_ok b (w ++ r0) Hb) as (bv & Bv & Bind).
      assert (NSc : no_skip (str ")" ++ r)) by (apply no_skip_char; [intros [H|[H|[H|H]]]; discriminate|discriminate]).
      destruct (flag_ok "___" """___""" trl tr r4 Ft) as (tv & Tv & Tr).
      { apply no_skip_char; [intros [H|[H|[H|H]]]; discriminate|discriminate]. }
      { apply flag_absent; [exact W'|exact NSc|discriminate]. }
      destruct (flag_ok "..." """...""" ell el r3 Fe) as (ev & Ev & El).
      { apply no_skip_char; [intros [H|[H|[H|H]]]; discriminate|discriminate]. }
      { unfold r3. destruct Ft as [|wt [Wt Wn]].
        - apply (flag_absent _ _ w'); [exact W'|exact NSc|discriminate].
        - rewrite <- app_assoc. apply (flag_absent _ _ wt); [exact Wt| |discriminate].
          apply no_skip_char; [intros [H|[H|[H|H]]]; discriminate|discriminate]. }
      eapply sem_ref; [reflexivity|]. apply sem_choice. eapply alts_good. eapply sem_ref; [reflexivity|]. rewrite sexpr_eq.
      replace ((if_given b (fun b => b ++ str ":") ++ str "(" ++ w ++ opcode_text o ++ opst ++ ell ++ trl ++ w' ++ str ")") ++ r)
        with (if_given b (fun b => b ++ str ":") ++ str "(" ++ w ++ r0)
        by (unfold r0, r1, r2, r3, r4; rewrite <- !app_assoc; reflexivity).
      destruct (ws0_ok gp w' (str ")" ++ r) [] W' NSc) as [wv' Ws'].
      eapply sem_action.
      + apply sem_sequence. eapply seq_cons; [eapply sem_label; exact Bind|]. eapply seq_cons; [apply lit_ok|].
        destruct (ws0_ok gp w r0 [(str "binding", bv)] W (word_no_skip o r1 Ho)) as [wv2 Ws2].
        eapply seq_cons; [inversion Ws; subst; apply sem_star; eassumption|].
        eapply seq_cons; [eapply sem_label; exact Op|].
        eapply seq_cons; [eapply sem_label; apply sem_star; exact Rep|].
        eapply seq_cons; [eapply sem_label; exact El|].
        eapply seq_cons; [eapply sem_label; exact Tr|].
        eapply seq_cons; [inversion Ws'; subst; apply sem_star; eassumption|].
        eapply seq_cons; [apply (lit_ok gp ")" _ _ r)|]. apply seq_nil.
      + cbn [run_action]. apply sexpr_action; assumption.
    - intros r T _. exists []. split; [constructor|]. apply rep_nil. apply tail_no_operand. exact T.
    - intros w t x rest xs W Fx IHx Fr IHr r T G. destruct (IHr r T G) as (vs & F & Rep).
      rewrite <- !app_assoc. destruct (ws1_ok gp w (t ++ rest ++ r) [] W (operand_no_skip t x (rest ++ r) Fx)) as [v Gw].
      eexists (_ :: vs). split; [constructor; [eexists; reflexivity|exact F]|].
      eapply rep_cons; [|exact Rep]. apply sem_sequence. eapply seq_cons; [exact Gw|].
      eapply seq_cons; [apply IHx; eapply operands_goes_on; eauto|]. apply seq_nil.
    - intros t Ne N r G. eapply sem_ref; [reflexivity|]. rewrite operand_eq. apply sem_choice. rewrite <- !app_assoc.
      eapply alts_good. apply (bracket_ok (str "[^>]") onOperand2 "<" """<""" ">"%char ">"); auto; [reflexivity|].
      cbn [run_action]. rewrite inner_text by reflexivity. reflexivity.
    - intros t e Ne N R r G. eapply sem_ref; [reflexivity|]. rewrite operand_eq. apply sem_choice. rewrite <- !app_assoc.
      apply alts_fail; [apply bracket_bad; nextchar|].
      eapply alts_good. apply (bracket_ok (str "[^]]") onOperand8 "[" """[""" "]"%char "]"); auto; [reflexivity|].
      cbn [run_action]. rewrite inner_text by reflexivity. apply with_goexpr_spec. eauto.
    - intros t e Ne N R r G. eapply sem_ref; [reflexivity|]. rewrite operand_eq. apply sem_choice. rewrite <- !app_assoc.
      apply alts_fail; [apply bracket_bad; nextchar|]. apply alts_fail; [apply bracket_bad; nextchar|].
      eapply alts_good. apply (bracket_ok (str "[^}]") onOperand14 "{" """{""" "}"%char "}"); auto; [reflexivity|].
      cbn [run_action]. rewrite inner_text by reflexivity. apply with_goexpr_spec. eauto.
    - intros t v V IH r G. destruct (goes_on_end r G) as [O C]. destruct (value_first t v V) as (c & t' & E & Hc).
      assert (NB : forall d, d = "<"%char \/ d = "["%char \/ d = "{"%char -> not_next (eq d) (t ++ r)).
      { intros d Hd x y X <-. rewrite E in X. inversion X; subst. destruct Hc as [H|[H|H]], Hd as [D|[D|D]]; subst; discriminate. }
      eapply sem_ref; [reflexivity|]. rewrite operand_eq. apply sem_choice.
      apply alts_fail; [apply bracket_bad; apply NB; auto|]. apply alts_fail; [apply bracket_bad; apply NB; auto|].
      apply alts_fail; [apply bracket_bad; apply NB; auto|]. eapply alts_good. apply IH. apply ends_of; assumption.
  Qed.

  (** ** Matches are written forms *)
  Definition value_sound_at (n : nat) : Prop := forall t v en en' r, (List.length t < n)%nat -> S Value en t (Good v en' r) ->
    exists k u, t = k ++ r /\ value_form gp k u /\ v = VValue u /\ en' = en /\ expr_end gp k r.
  Lemma operand_sound n : value_sound_at n -> forall t v en en' r, (List.length t < n)%nat -> S Operand en t (Good v en' r) ->
    exists k x, t = k ++ r /\ operand_form gp k x /\ v = operand_val x /\ en' = en.
  Proof.
    intros IH t v en en' r L H.
    inversion H as [| | | | | | | | | | | | |? ? ? ? ? ? ? Gr B| | | | | | |]; subst. cbn in Gr. inversion Gr; subst b. clear Gr.
    rewrite operand_eq in B. inversion B as [| |? ? ? ? C| | | | | | | | | | | | | | | | | |]; subst.
    inversion C as [|? ? ? ? ? ? ? D|? ? ? ? ? _ C1]; subst.
    { apply (bracket_inv _ _ _ _ ">"%char) in D; [|reflexivity]. destruct D as (k & -> & Ne & N & R & _).
      cbn [run_action] in R. rewrite inner_text in R by reflexivity. inversion R; subst. exists (str "<" ++ k ++ str ">"), (OType k).
      split; [rewrite <- !app_assoc; reflexivity|]. split; [constructor; assumption|auto]. }
    inversion C1 as [|? ? ? ? ? ? ? D|? ? ? ? ? _ C2]; subst.
    { apply (bracket_inv _ _ _ _ "]"%char) in D; [|reflexivity]. destruct D as (k & -> & Ne & N & R & _).
      cbn [run_action] in R. rewrite inner_text in R by reflexivity. apply with_goexpr_spec in R. destruct R as (e & R & ->).
      exists (str "[" ++ k ++ str "]"), (OAuxInt e).
      split; [rewrite <- !app_assoc; reflexivity|]. split; [constructor; assumption|auto]. }
    inversion C2 as [|? ? ? ? ? ? ? D|? ? ? ? ? _ C3]; subst.
    { apply (bracket_inv _ _ _ _ "}"%char) in D; [|reflexivity]. destruct D as (k & -> & Ne & N & R & _).
      cbn [run_action] in R. rewrite inner_text in R by reflexivity. apply with_goexpr_spec in R. destruct R as (e & R & ->).
      exists (str "{" ++ k ++ str "}"), (OAux e).
      split; [rewrite <- !app_assoc; reflexivity|]. split; [constructor; assumption|auto]. }
    inversion C3 as [|? ? ? ? ? ? ? D|? ? ? ? ? _ C4]; subst; [|inversion C4].
    apply IH in D; [|exact L]. destruct D as (k & u & -> & V & -> & _ & _). exists k, (OArg u).
    split; [reflexivity|]. split; [constructor; exact V|auto].
  Qed.
  Lemma operands_sound n : value_sound_at n -> forall vs t r, (List.length t < n)%nat -> SR g_operand t vs r ->
    exists k ops, t = k ++ r /\ operands_form gp k ops /\ Forall2 item_of ops vs.
  Proof.
    intros IH. induction vs as [|v vs IHv]; intros t r L H; inversion H; subst.
    - exists [], []. repeat split; constructor.
    - match goal with G : S g_operand _ _ _ |- _ => rename G into M end. apply sequence_inv in M.
      apply seq_inv in M. destruct M as (v1 & en1 & r1 & M1 & M). apply seq_inv in M. destruct M as (v2 & en2 & r2 & M2 & M).
      apply seq_end in M. destruct M as (-> & -> & ->). apply ws1_inv in M1. destruct M1 as (w & -> & W & _ & ->).
      rewrite app_length in L. apply (operand_sound n IH) in M2; [|lia]. destruct M2 as (k & x & -> & Fx & -> & ->).
      rewrite app_length in L.
      match goal with G : SR _ _ vs _ |- _ => apply IHv in G; [|lia]; destruct G as (k' & ops & -> & Fo & F2) end.
      exists (w ++ k ++ k'), (x :: ops). rewrite <- !app_assoc. split; [reflexivity|]. split; [constructor; assumption|].
      constructor; [eexists; reflexivity|exact F2].
  Qed.
  Lemma values_sound n : value_sound_at n.
  Proof.
    induction n as [|n IH]; [intros t; lia|]. intros t v en en' r L H.
    inversion H as [| | | | | | | | | | | | |? ? ? ? ? ? ? Gr B| | | | | | |]; subst. cbn in Gr. inversion Gr; subst b. clear Gr.
    inversion B as [| |? ? ? ? C| | | | | | | | | | | | | | | | | |]; subst.
    inversion C as [|? ? ? ? ? ? ? D|? ? ? ? ? _ C1]; subst.
    - clear H B C. inversion D as [| | | | | | | | | | | | |? ? ? ? ? ? ? Gr F| | | | | | |]; subst. cbn in Gr. inversion Gr; subst b. clear Gr.
      rewrite sexpr_eq in F. inversion F as [? ? ? ? ? ? ? ? A R| | | | | | | | | | | | | | | | | | | |]; subst. apply sequence_inv in A.
      apply seq_inv in A. destruct A as (v1 & en1 & r1 & M1 & M). apply seq_inv in M. destruct M as (v2 & en2 & r2 & M2 & M).
      apply seq_inv in M. destruct M as (v3 & en3 & r3 & M3 & M). apply seq_inv in M. destruct M as (v4 & en4 & r4 & M4 & M).
      apply seq_inv in M. destruct M as (v5 & en5 & r5 & M5 & M). apply seq_inv in M. destruct M as (v6 & en6 & r6 & M6 & M).
      apply seq_inv in M. destruct M as (v7 & en7 & r7 & M7 & M). apply seq_inv in M. destruct M as (v8 & en8 & r8 & M8 & M).
      apply seq_inv in M. destruct M as (v9 & en9 & r9 & M9 & M). apply seq_end in M. destruct M as (_ & -> & ->).
      inversion M1 as [| | |? ? ? ? ? ? ? N1| | | | | | | | | | | | | | | | |]; subst. apply binding_inv in N1. destruct N1 as (b & -> & Hb & Bv & _).
      apply lit_inv in M2. destruct M2 as [-> ->]. apply ws0_inv in M3. destruct M3 as (w & -> & W & _ & ->).
      inversion M4 as [| | |? ? ? ? ? ? ? N4| | | | | | | | | | | | | | | | |]; subst. apply op_inv in N4. destruct N4 as (o & -> & Wo & ->).
      inversion M5 as [| | |? ? ? ? ? ? ? N5| | | | | | | | | | | | | | | | |]; subst. inversion N5; subst.
      match goal with G : SR _ _ _ _ |- _ => apply (operands_sound n IH) in G; [|rewrite !app_length in L; cbn in L; lia]; destruct G as (opst & ops & -> & Fo & F2) end.
      inversion M6 as [| | |? ? ? ? ? ? ? N6| | | | | | | | | | | | | | | | |]; subst. apply flag_inv in N6. destruct N6 as (ell & el & -> & Fe & Ev & _).
      inversion M7 as [| | |? ? ? ? ? ? ? N7| | | | | | | | | | | | | | | | |]; subst. apply flag_inv in N7. destruct N7 as (trl & tr & -> & Ft & Tv & _).
      apply ws0_inv in M8. destruct M8 as (w' & -> & W' & _ & ->). apply lit_inv in M9. destruct M9 as [-> ->].
      cbn [run_action] in R. change (on_sexpr_action v1 (op_val o) (VSlice vs) v6 v7 = AOk v) in R.
      rewrite (sexpr_action _ b o ops _ _ el _ tr) in R by assumption. inversion R; subst.
      exists (if_given b (fun b => b ++ str ":") ++ str "(" ++ w ++ opcode_text o ++ opst ++ ell ++ trl ++ w' ++ str ")"), (SExp (assemble b o ops el tr)).
      split; [rewrite <- !app_assoc; reflexivity|]. split; [constructor; assumption|]. split; [reflexivity|]. split; [reflexivity|].
      assert (I : In "("%char (if_given b (fun b => b ++ str ":") ++ str "(" ++ w ++ opcode_text o ++ opst ++ ell ++ trl ++ w' ++ str ")"))
        by (apply in_or_app; right; left; reflexivity).
      split.
      + intros Hi. apply ident_word in Hi. destruct Hi as [_ Hi]. rewrite Forall_forall in Hi. specialize (Hi _ I). revert Hi. notword.
      + intros E. rewrite E in I. destruct I as [I|[]]. discriminate.
    - inversion C1 as [|? ? ? ? ? ? ? D|? ? ? ? ? _ C2]; subst; [|inversion C2].
      apply (exprs_sound gp (Datatypes.S n)) in D; [|exact L]. destruct D as (k & u & -> & E & -> & _ & X).
      exists k, u. split; [reflexivity|]. split; [constructor; exact E|auto].
  Qed.
End Values.
