(** The text of a well-formed tree is a written form of that tree. *)
From Verif Require Import Text GoAst Ast Utf8 GoExpr Peg Grammar Parse SpecPrint SpecUtf8 SpecSyntax SpecTrees PegPoints PegSem PrintFacts
  SynLex SynWords SynExpr SynValue SynRule SynFile SynShape ParseFacts.
From Verif Require Import SynTrim.
From Coq Require Import NArith Arith Bool Lia.

(** ** ASCII texts *)
Definition ascii_text (t : text) : Prop := Forall (fun c => (byte_val c < 128)%N) t.
Lemma word_char_ascii c : word_char c -> (byte_val c < 128)%N.
Proof.
  unfold word_char, in_range. intros [-> | [H|[H|H]]]; [reflexivity|..]; apply andb_prop in H; destruct H as [_ H];
  apply N.leb_le in H; unfold byte_val in *; eapply N.le_lt_trans; try exact H; reflexivity.
Qed.
Lemma word_utf8 t : word t -> utf8 t.
Proof. intros [_ F]. apply utf8_ascii. eapply Forall_impl; [|exact F]. apply word_char_ascii. Qed.
Lemma ident_utf8 t : ident t -> utf8 t.
Proof. intros H. apply word_utf8. apply ident_word. exact H. Qed.
Lemma sep_by_utf8 s l : utf8 s -> Forall utf8 l -> utf8 (sep_by s l).
Proof.
  intros S F. induction F as [|t l U F IH]; [constructor|]. destruct l as [|x l]; [exact U|].
  change (sep_by s (t :: x :: l)) with (t ++ s ++ sep_by s (x :: l)). repeat apply utf8_app; assumption.
Qed.
Lemma concat_utf8 l : Forall utf8 l -> utf8 (List.concat l).
Proof. induction 1; cbn; [constructor|apply utf8_app; assumption]. Qed.
Ltac ascii8 := solve [apply utf8_ascii; repeat constructor].
Lemma part_utf8 p : part_wf p -> utf8 (part_text p).
Proof.
  destruct p as [c|l|]; cbn [part_wf]; [apply word_utf8| |contradiction]. intros [L F]. rewrite part_text_alt; [|destruct l; [cbn in L; lia|discriminate]].
  unfold alt_text. repeat apply utf8_app; [ascii8| |ascii8]. apply sep_by_utf8; [ascii8|]. eapply Forall_impl; [|exact F]. apply word_utf8.
Qed.
Lemma op_utf8 o : op_wf o -> utf8 (opcode_text o).
Proof.
  destruct o as [c|ps|]; cbn [op_wf opcode_text]; [apply word_utf8| |contradiction]. intros (_ & F & _). apply concat_utf8.
  rewrite Forall_map. eapply Forall_impl; [|exact F]. apply part_utf8.
Qed.
Lemma op_wf_good o : op_wf o -> op_bad o = [].
Proof.
  destruct o as [c|ps|]; cbn [op_wf op_bad]; [reflexivity| |contradiction]. intros (_ & F & _).
  induction F as [|p ps H _ IH]; [reflexivity|]. cbn. rewrite IH. destruct p; [reflexivity..|contradiction].
Qed.

Lemma ws1_sp : ws1 (str " ").
Proof. split; [apply ws_blank; left; reflexivity|discriminate]. Qed.

Section Print.
  Variable gp : text -> res gexpr.
  (** What [gp] reads the text of an expression as. *)
  Variable sg : gexpr -> gexpr.
  Definition sub_aux (close : ascii) (e : gexpr) : Prop :=
    prints e /\ go_text e <> [] /\ ~ In close (go_text e) /\ reads gp (go_text e) (sg e).
  Definition sub_value (e : gexpr) : Prop := prints e /\ expr_form gp (go_text e) (EVal (sg e)).
  Definition sub_cond (e : gexpr) : Prop :=
    prints e /\ (exists c t, go_text e = c :: t /\ ~ blank c /\ c <> "/"%char) /\
    (forall x y, go_text e = x ++ str "=>" ++ y -> x = []) /\
    reads_cond gp (go_text e) (sg e).
  Fixpoint sub_go_value (v : value) : Prop :=
    match v with
    | SExp s => Forall (sub_aux "]") (given (s_auxint s)) /\ Forall (sub_aux "}") (given (s_aux s)) /\
                fold_right (fun a P => sub_go_value a /\ P) True (s_args s)
    | EVal e => sub_value e
    | Var _ | NilValue => True
    end.
  Definition sub_go_rule (r : rule) : Prop := sub_go_value (r_match r) /\ Forall sub_cond (given (r_cond r)) /\ sub_go_value (r_result r).
  Fixpoint sub_v (v : value) : value :=
    match v with
    | SExp s => SExp (mkSExpr (s_binding s) (s_op s) (s_type s) (option_map sg (s_auxint s)) (option_map sg (s_aux s)) (map sub_v (s_args s)) (s_ellipsis s) (s_trailing s))
    | EVal e => EVal (sg e)
    | Var x => Var x
    | NilValue => NilValue
    end.
  Definition sub_r (r : rule) : rule := mkRule (sub_v (r_match r)) (option_map sg (r_cond r)) (r_block r) (sub_v (r_result r)).

  Lemma opt_good (P : gexpr -> Prop) o : (forall e, P e -> go_bad e = []) -> Forall P (given o) -> opt_bad o = [].
  Proof. intros H F. destruct o as [e|]; [|reflexivity]. cbn in *. inversion F; auto. Qed.

  Lemma sub_print_value v : lex_value v -> sub_go_value v ->
    value_form gp (value_text v) (sub_v v) /\ value_bad v = [] /\ utf8 (value_text v).
  Proof.
    induction v as [[b o ty ai ax args el tr] IH|e|x|] using value_ind'.
    - cbn [lex_value sub_go_value s_binding s_op s_type s_auxint s_aux s_args]. rewrite !fold_and_Forall.
      intros (Hb & Ho & [Nt Ut] & La) (Fai & Fax & Fa).
      assert (A : Forall (fun a => value_form gp (value_text a) (sub_v a) /\ value_bad a = [] /\ utf8 (value_text a)) args).
      { rewrite Forall_forall in *. intros a I. apply IH; auto. }
      set (tt := if_given ty (fun t => str " <" ++ t ++ str ">")). set (ti := if_set ai (fun e => str " [" ++ go_text e ++ str "]")).
      set (tx := if_set ax (fun e => str " {" ++ go_text e ++ str "}")). set (ta := List.concat (map (fun a => str " " ++ value_text a) args)).
      assert (Fargs : operands_form gp ta (map OArg (map sub_v args))).
      { unfold ta. clear -A. induction A as [|a l [V _] _ IH]; cbn [map List.concat]; [constructor|]. rewrite <- app_assoc.
        constructor; [apply ws1_sp|constructor; exact V|exact IH]. }
      assert (Faux : operands_form gp (tx ++ ta) (map OAux (given (option_map sg ax)) ++ map OArg (map sub_v args))).
      { unfold tx. destruct ax as [e|]; cbn [if_set given map app]; [|exact Fargs]. inversion Fax as [|? ? (_ & Ne & Nc & R) _]; subst.
        change ((str " {" ++ go_text e ++ str "}") ++ ta) with (((str " " ++ str "{") ++ go_text e ++ str "}") ++ ta). rewrite <- !app_assoc.
        replace (str " " ++ str "{" ++ go_text e ++ str "}" ++ ta) with (str " " ++ (str "{" ++ go_text e ++ str "}") ++ ta) by (rewrite <- !app_assoc; reflexivity).
        constructor; [apply ws1_sp|constructor; assumption|exact Fargs]. }
      assert (Fauxint : operands_form gp (ti ++ tx ++ ta) (map OAuxInt (given (option_map sg ai)) ++ map OAux (given (option_map sg ax)) ++ map OArg (map sub_v args))).
      { unfold ti. destruct ai as [e|]; cbn [if_set given map app]; [|exact Faux]. inversion Fai as [|? ? (_ & Ne & Nc & R) _]; subst.
        change ((str " [" ++ go_text e ++ str "]") ++ tx ++ ta) with (((str " " ++ str "[") ++ go_text e ++ str "]") ++ tx ++ ta).
        replace (((str " " ++ str "[") ++ go_text e ++ str "]") ++ tx ++ ta) with (str " " ++ (str "[" ++ go_text e ++ str "]") ++ tx ++ ta) by (rewrite <- !app_assoc; reflexivity).
        constructor; [apply ws1_sp|constructor; assumption|exact Faux]. }
      assert (exists ops, operands_form gp (tt ++ ti ++ tx ++ ta) ops /\ types_of ops = (match ty with [] => [] | _ => [ty] end) /\
        auxints_of ops = given (option_map sg ai) /\ auxs_of ops = given (option_map sg ax) /\ args_of ops = map sub_v args) as (ops & Fops & E1 & E2 & E3 & E4).
      { set (ai' := option_map sg ai) in *. set (ax' := option_map sg ax) in *. set (args' := map sub_v args) in *. clearbody ai' ax' args'.
        set (rest := map OAuxInt (given ai') ++ map OAux (given ax') ++ map OArg args') in *.
        assert (R1 : types_of rest = []) by (unfold rest, types_of; clear; induction args'; destruct ai', ax'; cbn in *; auto).
        assert (R2 : auxints_of rest = given ai') by (unfold rest, auxints_of; clear; induction args'; destruct ai', ax'; cbn in *; auto).
        assert (R3 : auxs_of rest = given ax') by (unfold rest, auxs_of; clear; induction args'; destruct ai', ax'; cbn in *; auto).
        assert (R4 : args_of rest = args').
        { unfold rest, args_of. clear. rewrite !flat_map_app. replace (flat_map _ (map OAuxInt _)) with (@nil value) by (destruct ai'; reflexivity).
          replace (flat_map _ (map OAux _)) with (@nil value) by (destruct ax'; reflexivity). cbn. induction args'; cbn; congruence. }
        unfold tt. destruct ty as [|c ty']; cbn [if_given]; [exists rest; auto|]. exists (OType (c :: ty') :: rest).
        split; [|unfold types_of, auxints_of, auxs_of, args_of in *; cbn [flat_map app]; rewrite R1; auto].
        replace ((str " <" ++ (c :: ty') ++ str ">") ++ ti ++ tx ++ ta) with (str " " ++ (str "<" ++ (c :: ty') ++ str ">") ++ ti ++ tx ++ ta) by (cbn; rewrite <- !app_assoc; reflexivity).
        constructor; [apply ws1_sp|constructor; [discriminate|assumption]|exact Fauxint]. }
      split; [|split].
      + cbn [value_text s_binding s_op s_type s_auxint s_aux s_args s_ellipsis s_trailing]. fold tt. fold ti. fold tx. fold ta.
        cbn [sub_v s_binding s_op s_type s_auxint s_aux s_args s_ellipsis s_trailing].
        replace (mkSExpr b o ty (option_map sg ai) (option_map sg ax) (map sub_v args) el tr) with (assemble b o ops el tr).
        2: { unfold assemble. rewrite E1, E2, E3, E4. destruct ty, ai, ax; reflexivity. }
        pose proof (value_sexpr gp b [] o (tt ++ ti ++ tx ++ ta) ops (when el (str " ...")) el (when tr (str " ___")) tr [] Hb ws_nil Ho Fops) as V.
        cbn [app] in V. rewrite <- !app_assoc in V. apply V; [destruct el| destruct tr|constructor]; cbn [when].
        * apply (flag_on (str "...") (str " ") ws1_sp).
        * apply flag_off.
        * apply (flag_on (str "___") (str " ") ws1_sp).
        * apply flag_off.
      + cbn [value_bad s_op s_auxint s_aux s_args]. rewrite (op_wf_good o Ho).
        rewrite (opt_good _ ai (fun e H => proj1 (proj1 H)) Fai), (opt_good _ ax (fun e H => proj1 (proj1 H)) Fax). cbn.
        clear -A. induction A as [|a l (_ & B & _) _ IH]; cbn; [reflexivity|]. rewrite B, IH. reflexivity.
      + cbn [value_text s_binding s_op s_type s_auxint s_aux s_args s_ellipsis s_trailing].
        repeat apply utf8_app; try ascii8.
        * destruct Hb as [-> |Hb]; [constructor|]. destruct b; [constructor|]. cbn [if_given]. apply utf8_app; [apply ident_utf8; exact Hb|ascii8].
        * apply op_utf8. exact Ho.
        * destruct ty; [constructor|]. cbn [if_given]. repeat apply utf8_app; [ascii8|exact Ut|ascii8].
        * destruct ai as [e|]; [|constructor]. inversion Fai as [|? ? ([_ U] & _) _]; subst. cbn [if_set]. repeat apply utf8_app; [ascii8|exact U|ascii8].
        * destruct ax as [e|]; [|constructor]. inversion Fax as [|? ? ([_ U] & _) _]; subst. cbn [if_set]. repeat apply utf8_app; [ascii8|exact U|ascii8].
        * apply concat_utf8. rewrite Forall_map. eapply Forall_impl; [|exact A]. cbn beta. intros a (_ & _ & U). apply utf8_app; [ascii8|exact U].
        * destruct el; cbn [when]; ascii8.
        * destruct tr; cbn [when]; ascii8.
    - intros _ [[G U] E]. split; [constructor; exact E|]. split; [exact G|exact U].
    - intros [H| ->] _; (split; [constructor; constructor|split; [reflexivity|]]); [exact H|apply ident_utf8; exact H|ascii8].
    - intros [].
  Qed.

  Lemma sub_print_rule r rest : lex_rule r -> sub_go_rule r ->
    rule_form gp (nl :: rest) (rule_text r) (sub_r r) /\ rule_bad r = [] /\ utf8 (rule_text r).
  Proof.
    destruct r as [m c b res]. intros (Lm & [Nb Ub] & Lr) (Gm & Gc & Gr). cbn [r_match r_cond r_block r_result] in *.
    destruct (sub_print_value m Lm Gm) as (Vm & Bm & Um). destruct (sub_print_value res Lr Gr) as (Vr & Br & Ur).
    split; [|split].
    - unfold rule_text. cbn [r_match r_cond r_block r_result].
      set (bt := match b with [] => [] | _ => str "@" ++ b end). set (w3 := match b with [] => [] | _ => str " " end).
      set (ct := if_set c (fun e => str " && " ++ go_text e)).
      replace (value_text m ++ ct ++ str " => " ++ if_given b (fun b => str "@" ++ b ++ str " ") ++ value_text res)
        with (value_text m ++ ct ++ str " " ++ str "=>" ++ str " " ++ bt ++ w3 ++ value_text res).
      2: { unfold bt, w3. change (str " => ") with (str " " ++ str "=>" ++ str " "). destruct b; cbn [if_given app]; rewrite <- ?app_assoc; [reflexivity|]. cbn. rewrite <- !app_assoc. reflexivity. }
      apply rule_intro; auto.
      + unfold ct. destruct c as [e|]; cbn [if_set given] in *; [|constructor].
        inversion Gc as [|? ? (_ & (d & t & E & Nd & Nsl) & NA & R) _]; subst.
        change (str " && " ++ go_text e) with (str " " ++ str "&&" ++ str " " ++ go_text e).
        eapply cond_some; try apply ws1_sp; eauto.
        * rewrite E. discriminate.
        * rewrite E. cbn [app]. apply no_skip_char; assumption.
        * reflexivity.
        * left. reflexivity.
      + apply ws1_sp.
      + apply ws1_sp.
      + unfold bt, w3. destruct b as [|d b]; [constructor|]. apply (block_some _ (d :: b) sp (value_text res ++ nl :: rest)); [discriminate|exact Nb|reflexivity|left; reflexivity].
      + unfold w3. destruct b; [constructor|apply ws1_sp].
      + assert (N : forall P : ascii -> Prop, ~ P nl -> not_next P (nl :: rest)) by (intros P H x y E; inversion E; subst; exact H).
        split; [|intros _; apply N; discriminate]. intros _. split.
        * apply N. apply blank_not_word. left. right. right. right. reflexivity.
        * intros w a w' after' _ _ _. discriminate.
    - unfold rule_bad. cbn [r_match r_cond r_result]. rewrite Bm, Br, (opt_good _ c (fun e H => proj1 (proj1 H)) Gc). reflexivity.
    - unfold rule_text. cbn [r_match r_cond r_block r_result]. repeat apply utf8_app; try ascii8; auto.
      + destruct c as [e|]; [|constructor]. inversion Gc as [|? ? ([_ U] & _) _]; subst. cbn [if_set]. apply utf8_app; [ascii8|exact U].
      + destruct b; [constructor|]. cbn [if_given]. repeat apply utf8_app; [ascii8|exact Ub|ascii8].
  Qed.

  Lemma sub_print_file rs : Forall lex_rule rs -> Forall sub_go_rule rs ->
    source_form gp (file_text (mkFile rs)) (map sub_r rs) /\ flat_map rule_bad rs = [] /\ utf8 (file_text (mkFile rs)).
  Proof.
    intros L G. induction L as [|r rs Lr L IH]; [split; [constructor|split; [reflexivity|constructor]]|]. inversion G as [|? ? Gr Grs]; subst.
    destruct (IH Grs) as (S & B & U). unfold file_text in *. cbn [f_rules map List.concat flat_map] in *.
    destruct (sub_print_rule r (List.concat (map (fun r => rule_text r ++ [nl]) rs)) Lr Gr) as (F & Br & Ur).
    split; [|split].
    - rewrite <- app_assoc. apply (source_cons gp [] (rule_text r) [nl]); [constructor|apply ws_blank; right; right; right; reflexivity|exact F|exact S].
    - rewrite Br, B. reflexivity.
    - apply utf8_app; [apply utf8_app; [exact Ur|ascii8]|exact U].
  Qed.
  (** Printing succeeds and the text parses to the rules with what is read for each expression. *)
  Lemma sub_print_parse rs fn : Forall lex_rule rs -> Forall sub_go_rule rs ->
    exists t, Printer.Bytes (NFile (mkFile rs)) = Ok t /\ Parse gp fn t = Ok (mkFile (map sub_r rs)).
  Proof.
    intros L G. destruct (sub_print_file rs L G) as (S & B & U). exists (file_text (mkFile rs)). split.
    - rewrite Bytes_eq. cbn [node_bad node_text f_rules]. rewrite B. reflexivity.
    - apply parse_source. split; assumption.
  Qed.
End Print.

Lemma sub_v_id v : sub_v (fun e => e) v = v.
Proof.
  induction v as [[b o ty ai ax args el tr] IH|e|x|] using value_ind'; cbn [sub_v s_binding s_op s_type s_auxint s_aux s_args s_ellipsis s_trailing]; try reflexivity.
  replace (map (sub_v (fun e => e)) args) with args; [destruct ai, ax; reflexivity|].
  cbn in IH. induction IH as [|a l E _ IHl]; cbn; [reflexivity|]. rewrite E. f_equal. exact IHl.
Qed.
Lemma sub_r_id r : sub_r (fun e => e) r = r.
Proof. destruct r as [m c b res]. unfold sub_r. cbn [r_match r_cond r_block r_result]. rewrite !sub_v_id. destruct c; reflexivity. Qed.
Lemma print_value gp v : lex_value v -> go_value gp v -> value_form gp (value_text v) v /\ value_bad v = [] /\ utf8 (value_text v).
Proof. intros L G. destruct (sub_print_value gp (fun e => e) v L G) as [V H]. rewrite sub_v_id in V. auto. Qed.
Lemma print_rule gp r rest : lex_rule r -> go_rule gp r -> rule_form gp (nl :: rest) (rule_text r) r /\ rule_bad r = [] /\ utf8 (rule_text r).
Proof. intros L G. destruct (sub_print_rule gp (fun e => e) r rest L G) as [V H]. rewrite sub_r_id in V. auto. Qed.
Lemma print_file gp rs : Forall lex_rule rs -> Forall (go_rule gp) rs ->
  source_form gp (file_text (mkFile rs)) rs /\ flat_map rule_bad rs = [] /\ utf8 (file_text (mkFile rs)).
Proof.
  intros L G. destruct (sub_print_file gp (fun e => e) rs L G) as [V H]. split; [|exact H].
  rewrite (map_ext _ (fun r => r) sub_r_id), map_id in V. exact V.
Qed.
(** Printing succeeds and the text parses to the same rules. *)
Lemma print_parse gp rs fn : Forall lex_rule rs -> Forall (go_rule gp) rs ->
  exists t, Printer.Bytes (NFile (mkFile rs)) = Ok t /\ Parse gp fn t = Ok (mkFile rs).
Proof.
  intros L G. destruct (sub_print_parse gp (fun e => e) rs fn L G) as (t & B & P). exists t. split; [exact B|].
  rewrite (map_ext _ (fun r => r) sub_r_id), map_id in P. exact P.
Qed.
