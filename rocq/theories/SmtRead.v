(** The generated text reads back as the intended commands. *)
From Verif Require Import Text GoAst Ast SpecPrint Smt SpecSmt SmtGen.
From Coq Require Import Arith Bool ZArith Lia.

(** Characters that may be inside a word. *)
Definition word_char (c : ascii) : bool :=
  negb (is_blank c || text_eqb [c] (str "(") || text_eqb [c] (str ")") || text_eqb [c] (str ";")).
Lemma symbol_word c : symbol_char c = true -> word_char c = true.
Proof. destruct c as [[] [] [] [] [] [] [] []]; vm_compute; congruence. Qed.

Lemma word_char_step c w s : word_char c = true -> tokens_from false w (c :: s) = tokens_from false (c :: w) s.
Proof.
  unfold word_char. intros E. cbn [tokens_from].
  destruct (is_blank c); [discriminate|]. cbn [orb] in E.
  destruct (ascii_dec c "("%char) as [->|]; [discriminate|].
  destruct (ascii_dec c ")"%char) as [->|]; [discriminate|].
  destruct (ascii_dec c ";"%char) as [->|]; [discriminate|]. reflexivity.
Qed.
Lemma word_step u : forall w s, forallb word_char u = true ->
  tokens_from false w (u ++ s) = tokens_from false (rev u ++ w) s.
Proof.
  induction u as [|c u IH]; intros w s E; [reflexivity|]. cbn [forallb] in E. apply andb_true_iff in E.
  destruct E as [Ec Eu]. cbn [app]. rewrite word_char_step by exact Ec. rewrite IH by exact Eu.
  cbn [rev]. rewrite <- app_assoc. reflexivity.
Qed.

(** Text that starts with a delimiter (or is empty). *)
Definition delimited (s : text) : Prop :=
  forall w, w <> [] -> tokens_from false w s = Word (rev w) :: tokens_from false [] s.
Lemma delim_sp s : delimited (sp :: s).
Proof. intros [|c w] H; [congruence|]. reflexivity. Qed.
Lemma delim_nl s : delimited (nl :: s).
Proof. intros [|c w] H; [congruence|]. reflexivity. Qed.
Lemma delim_rp s : delimited (")"%char :: s).
Proof. intros [|c w] H; [congruence|]. reflexivity. Qed.

Fixpoint sx_text (x : sx) : text :=
  match x with Atom w => w | Node l => str "(" ++ sep_by (str " ") (map sx_text l) ++ str ")" end.
Fixpoint sx_toks (x : sx) : list tok :=
  match x with Atom w => [Word w] | Node l => LP :: flat_map sx_toks l ++ [RP] end.
Fixpoint sx_ok (x : sx) : Prop :=
  match x with
  | Atom w => w <> [] /\ forallb word_char w = true
  | Node l => (fix all l := match l with [] => True | a :: l' => sx_ok a /\ all l' end) l
  end.
Section SxInd.
  Variable P : sx -> Prop.
  Hypothesis HA : forall w, P (Atom w).
  Hypothesis HN : forall l, Forall P l -> P (Node l).
  Fixpoint sx_ind' (x : sx) : P x :=
    match x with
    | Atom w => HA w
    | Node l => HN l ((fix go (l : list sx) : Forall P l :=
        match l with [] => Forall_nil P | a :: l' => Forall_cons a (sx_ind' a) (go l') end) l)
    end.
End SxInd.
Lemma sx_ok_node l : sx_ok (Node l) <-> Forall sx_ok l.
Proof.
  cbn [sx_ok]. induction l as [|a l IH]; [split; constructor|].
  rewrite Forall_cons_iff, <- IH. reflexivity.
Qed.

Lemma sx_tokens x : sx_ok x -> forall rest, delimited rest ->
  tokens_from false [] (sx_text x ++ rest) = sx_toks x ++ tokens_from false [] rest.
Proof.
  induction x as [w|l IH] using sx_ind'; intros Hok rest Hd.
  - destruct Hok as [Hne Hw]. cbn [sx_text sx_toks app]. rewrite word_step by exact Hw. rewrite app_nil_r.
    rewrite Hd; [rewrite rev_involutive; reflexivity|].
    intros E. apply (f_equal (@rev _)) in E. rewrite rev_involutive in E. contradiction.
  - apply sx_ok_node in Hok. cbn [sx_text sx_toks].
    change (tokens_from false [] ((str "(" ++ sep_by (str " ") (map sx_text l) ++ str ")") ++ rest))
      with (LP :: tokens_from false [] ((sep_by (str " ") (map sx_text l) ++ str ")") ++ rest)).
    cbn [app]. f_equal. clear Hd. rewrite <- !app_assoc.
    change (str ")" ++ rest) with (")"%char :: rest). change ([RP] ++ tokens_from false [] rest) with (RP :: tokens_from false [] rest).
    assert (Hrp : tokens_from false [] (")"%char :: rest) = RP :: tokens_from false [] rest) by reflexivity.
    rewrite <- Hrp. pose proof (delim_rp rest) as Hd. set (tl := ")"%char :: rest) in *. clearbody tl. clear Hrp.
    induction l as [|a l IHl]; [reflexivity|].
    apply Forall_cons_iff in IH. destruct IH as [Ha IH]. apply Forall_cons_iff in Hok. destruct Hok as [Oa Ol].
    cbn [flat_map]. rewrite <- app_assoc, <- (IHl IH Ol). clear IHl. destruct l as [|b l].
    + cbn [map sep_by app]. apply Ha; assumption.
    + change (sep_by (str " ") (map sx_text (a :: b :: l))) with (sx_text a ++ str " " ++ sep_by (str " ") (map sx_text (b :: l))).
      rewrite <- !app_assoc. change (str " " ++ ?z) with (sp :: z).
      rewrite (Ha Oa); [|apply delim_sp]. reflexivity.
Qed.

Lemma sx_read_toks x : forall ts st cur, sx_read (sx_toks x ++ ts) st cur = sx_read ts st (x :: cur).
Proof.
  induction x as [w|l IH] using sx_ind'; intros ts st cur; [reflexivity|].
  cbn [sx_toks app sx_read]. rewrite <- app_assoc.
  assert (E : forall ts st acc, sx_read (flat_map sx_toks l ++ ts) st acc = sx_read ts st (rev l ++ acc)).
  { clear ts st cur. induction IH as [|a l Ha _ IHl]; intros ts st acc; [reflexivity|].
    cbn [flat_map]. rewrite <- app_assoc, Ha, IHl. cbn [rev]. rewrite <- app_assoc. reflexivity. }
  rewrite E. cbn [app sx_read]. rewrite app_nil_r, rev_involutive. reflexivity.
Qed.
Lemma sx_read_all l : sx_read (flat_map sx_toks l) [] [] = Some l.
Proof.
  assert (E : forall l acc, sx_read (flat_map sx_toks l) [] acc = Some (rev acc ++ l)).
  { clear l. induction l as [|a l IH]; intros acc; cbn [flat_map]; [cbn; rewrite app_nil_r; reflexivity|].
    rewrite sx_read_toks, IH. cbn [rev]. rewrite <- app_assoc. reflexivity. }
  apply E.
Qed.

(** Comments. *)
Lemma comment_eaten t rest : ~ In cr t ->
  tokens_from true [] (comment_lines t ++ nl :: rest) = tokens_from false [] rest.
Proof.
  induction t as [|c t IH]; intros Hc; [reflexivity|]. cbn [comment_lines].
  assert (Hc' : ~ In cr t) by (intros X; apply Hc; right; exact X).
  destruct (ascii_dec c nl) as [->|Hn].
  - change (tokens_from true [] ((nl :: str "; " ++ comment_lines t) ++ nl :: rest))
      with (tokens_from true [] (comment_lines t ++ nl :: rest)). auto.
  - cbn [app tokens_from]. unfold is_eol. destruct (ascii_dec c nl); [contradiction|].
    destruct (ascii_dec c cr) as [->|]; [elim Hc; left; reflexivity|]. cbn [negb]. auto.
Qed.
Lemma comment_block_eaten t rest : ~ In cr t ->
  tokens_from false [] (comment_block t ++ rest) = tokens_from false [] rest.
Proof.
  intros Hc. unfold comment_block. rewrite <- !app_assoc. cbn [app].
  change (tokens_from false [] (str "; " ++ comment_lines t ++ nl :: rest))
    with (tokens_from true [] (comment_lines t ++ nl :: rest)). apply comment_eaten. exact Hc.
Qed.

(** The term of a value. *)
Definition op_sx (o : operator) (args : list sx) : sx :=
  match o with
  | IntOp Add _ => Node (Atom (str "bvadd") :: args) | IntOp Sub _ => Node (Atom (str "bvsub") :: args)
  | IntOp And _ => Node (Atom (str "bvand") :: args) | IntOp Or _ => Node (Atom (str "bvor") :: args)
  | IntOp Xor _ => Node (Atom (str "bvxor") :: args) | IntOp Neg _ => Node (Atom (str "bvneg") :: args)
  | IntOp Com _ => Node (Atom (str "bvnot") :: args) | BoolOp AndB => Node (Atom (str "and") :: args)
  | BoolOp OrB => Node (Atom (str "or") :: args) | BoolOp EqB => Node (Atom (str "=") :: args)
  | BoolOp NeqB => Node [Atom (str "not"); Node (Atom (str "=") :: args)]
  | BoolOp NotB => Node (Atom (str "not") :: args)
  end.
Definition op_term (o : operator) (args : list term) : term :=
  match o with
  | IntOp Add _ => TApp (str "bvadd") args | IntOp Sub _ => TApp (str "bvsub") args
  | IntOp And _ => TApp (str "bvand") args | IntOp Or _ => TApp (str "bvor") args
  | IntOp Xor _ => TApp (str "bvxor") args | IntOp Neg _ => TApp (str "bvneg") args
  | IntOp Com _ => TApp (str "bvnot") args | BoolOp AndB => TApp (str "and") args
  | BoolOp OrB => TApp (str "or") args | BoolOp EqB => TApp (str "=") args
  | BoolOp NeqB => TApp (str "not") [TApp (str "=") args]
  | BoolOp NotB => TApp (str "not") args
  end.
Definition with_op {A} (v : sexpr) (f : operator -> A) (d : A) : A :=
  match s_op v with Opcode c => match operator_of c with Some o => f o | None => d end | _ => d end.
Fixpoint vsx (v : value) : sx :=
  match v with
  | Var x => Atom x
  | SExp s => with_op s (fun o => op_sx o (map vsx (s_args s))) (Atom [])
  | _ => Atom []
  end.
Fixpoint vterm (v : value) : term :=
  match v with
  | Var x => TConst x
  | SExp s => with_op s (fun o => op_term o (map vterm (s_args s))) (TConst [])
  | _ => TConst []
  end.

Lemma op_format o xs : List.length xs = List.length (params o) ->
  sprintf (fmt o) (map sx_text xs) = sx_text (op_sx o xs).
Proof.
  destruct o as [[] w|[]]; cbn [params List.length]; intros L;
    destruct xs as [|a [|b [|]]]; try discriminate; cbn; rewrite <- ?app_assoc; reflexivity.
Qed.

Lemma Forall2_len {A B} (R : A -> B -> Prop) l l' : Forall2 R l l' -> List.length l = List.length l'.
Proof. induction 1; cbn; congruence. Qed.

Lemma with_op_typed {A} s o (f : operator -> A) d : s_op s = Opcode (opcode_of o) -> with_op s f d = f o.
Proof. intros O. unfold with_op. rewrite O, operator_of_opcode. reflexivity. Qed.

Lemma vexpr_sx G v t : typed G v t -> vexpr v = sx_text (vsx v).
Proof.
  revert v t. apply (typed_ind' G (fun v _ => vexpr v = sx_text (vsx v))); [reflexivity|].
  intros s o B O F IH. cbn [vexpr vsx]. rewrite (with_op_typed s o) by exact O. rewrite O, operator_of_opcode.
  rewrite <- op_format by (rewrite map_length; eapply Forall2_len; eauto). f_equal.
  rewrite map_map. clear -IH. induction IH; cbn; congruence.
Qed.

Lemma op_sx_ok o xs : Forall sx_ok xs -> sx_ok (op_sx o xs).
Proof.
  intros Hx.
  assert (HA : forall w l, w <> [] -> forallb word_char w = true -> Forall sx_ok l -> sx_ok (Node (Atom w :: l))).
  { intros w l H1 H2 H3. apply sx_ok_node. constructor; [split; assumption|exact H3]. }
  destruct o as [[] w|[]]; cbn [op_sx]; (apply HA; [discriminate|reflexivity|]); try exact Hx.
  constructor; [|constructor]. apply HA; [discriminate|reflexivity|exact Hx].
Qed.

Section Lenient.
Variable lenient : bool.
Definition names_ok (xs : list text) : Prop := Forall (fun x => legal_name lenient x = true) xs.

Lemma legal_symbol x : legal_name lenient x = true -> symbol_ok lenient x = true.
Proof. unfold legal_name. intros E. apply andb_true_iff in E. tauto. Qed.
Lemma symbol_ok_word l x : symbol_ok l x = true -> x <> [] /\ forallb word_char x = true.
Proof.
  unfold symbol_ok. intros E. apply andb_true_iff in E. destruct E as [E _]. unfold simple_symbol in E.
  destruct x as [|c x]; [discriminate|]. split; [discriminate|]. apply andb_true_iff in E. destruct E as [_ E].
  rewrite forallb_forall in *. intros d Hd. apply symbol_word. auto.
Qed.

Lemma vsx_ok G v t : typed G v t -> names_ok (value_vars v) -> sx_ok (vsx v).
Proof.
  revert v t. apply (typed_ind' G (fun v _ => names_ok (value_vars v) -> sx_ok (vsx v))).
  - intros x Hn. inversion Hn; subst. apply (symbol_ok_word lenient). apply legal_symbol. assumption.
  - intros s o B O F IH Hn. cbn [vsx]. rewrite (with_op_typed s o) by exact O. apply op_sx_ok.
    cbn [value_vars] in Hn. clear -IH Hn. induction IH as [|a t l ts Ha _ IHl]; cbn; constructor.
    + apply Ha. cbn in Hn. apply Forall_app in Hn. tauto.
    + apply IHl. cbn in Hn. apply Forall_app in Hn. tauto.
Qed.

Lemma all_some_map {A B C} (f : B -> option C) (g : A -> B) (h : A -> C) l :
  Forall (fun a => f (g a) = Some (h a)) l -> all_some f (map g l) = Some (map h l).
Proof. induction 1 as [|a l Ha _ IH]; cbn; [reflexivity|]. rewrite Ha, IH. reflexivity. Qed.

Lemma read_op o xs ts : List.length xs = List.length (params o) ->
  all_some (read_term lenient) xs = Some ts -> read_term lenient (op_sx o xs) = Some (op_term o ts).
Proof.
  intros L E. destruct o as [[] w|[]]; cbn [params List.length] in L;
    destruct xs as [|a [|b [|]]]; try discriminate;
    cbn [all_some] in E;
    destruct (read_term lenient a) as [ta|] eqn:Ea; try discriminate;
    try (destruct (read_term lenient b) as [tb|] eqn:Eb; try discriminate);
    inversion E; subst; cbn [op_sx op_term read_term all_some]; rewrite ?Ea, ?Eb; reflexivity.
Qed.

Lemma read_vsx G v t : typed G v t -> names_ok (value_vars v) -> read_term lenient (vsx v) = Some (vterm v).
Proof.
  revert v t. apply (typed_ind' G (fun v _ => names_ok (value_vars v) -> read_term lenient (vsx v) = Some (vterm v))).
  - intros x Hn. inversion Hn; subst. cbn. rewrite legal_symbol by assumption. reflexivity.
  - intros s o B O F IH Hn. cbn [vsx vterm]. rewrite !(with_op_typed s o) by exact O. apply read_op.
    + rewrite map_length. eapply Forall2_len; eauto.
    + apply all_some_map. cbn [value_vars] in Hn. clear -IH Hn.
      induction IH as [|a t l ts Ha _ IHl]; constructor; cbn in Hn; apply Forall_app in Hn; tauto.
Qed.

Definition tsort (t : ty) : sort := match t with TyBool => SBool | TyInt w => SBV (bits w) end.
Definition sort_sx (t : ty) : sx :=
  match t with
  | TyBool => Atom (str "Bool")
  | TyInt w => Node [Atom (str "_"); Atom (str "BitVec"); Atom (str (width_name w))]
  end.
Lemma sort_sx_text t : sx_text (sort_sx t) = sort_text t.
Proof. destruct t as [|[]]; reflexivity. Qed.
Lemma read_sort_sx t : read_sort (sort_sx t) = Some (tsort t).
Proof. destruct t as [|[]]; reflexivity. Qed.
Lemma sort_sx_ok t : sx_ok (sort_sx t).
Proof. destruct t as [|[]]; cbn; repeat split; try discriminate. Qed.

(** The whole script. *)
Definition decl_sx (d : text * ty) : sx := Node [Atom (str "declare-const"); Atom (fst d); sort_sx (snd d)].
Definition assert_sx (m x : sx) : sx :=
  Node [Atom (str "assert"); Node [Atom (str "not"); Node [Atom (str "="); m; x]]].
Definition header_sx : list sx :=
  [ Node [Atom (str "set-info"); Atom (str ":smt-lib-version"); Atom (str "2.6")];
    Node [Atom (str "set-logic"); Atom (str "QF_BV")] ].
Definition script_sx (G : text -> ty) (r : rule) : list sx :=
  header_sx ++ map decl_sx (decls G r) ++
  [ assert_sx (vsx (r_match r)) (vsx (r_result r)); Node [Atom (str "check-sat")]; Node [Atom (str "exit")] ].
Definition script_cmds (G : text -> ty) (r : rule) : list command :=
  SetInfo (str "smt-lib-version") (str "2.6") :: SetLogic (str "QF_BV") ::
  map (fun d => DeclareConst (fst d) (tsort (snd d))) (decls G r) ++
  [ Assert (TApp (str "not") [TApp (str "=") [vterm (r_match r); vterm (r_result r)]]); CheckSat; Exit_ ].

Lemma header_tokens rest : tokens_from false [] (header ++ rest) = flat_map sx_toks header_sx ++ tokens_from false [] rest.
Proof. reflexivity. Qed.

Lemma nl_tokens rest : tokens_from false [] (nl :: rest) = tokens_from false [] rest.
Proof. reflexivity. Qed.

Lemma sx_line x rest : sx_ok x ->
  tokens_from false [] (sx_text x ++ nl :: rest) = sx_toks x ++ tokens_from false [] rest.
Proof. intros Hok. rewrite sx_tokens by (auto using delim_nl). rewrite nl_tokens. reflexivity. Qed.

Lemma decl_line_text d : decl_line d = sx_text (decl_sx d) ++ [nl].
Proof.
  unfold decl_line, decl_sx. cbn [sx_text map sep_by]. rewrite sort_sx_text. rewrite <- !app_assoc. reflexivity.
Qed.

Lemma decl_tokens ds rest : names_ok (names ds) ->
  tokens_from false [] (List.concat (map decl_line ds) ++ rest) =
  flat_map sx_toks (map decl_sx ds) ++ tokens_from false [] rest.
Proof.
  induction ds as [|d ds IH]; intros Hn; [reflexivity|]. cbn [names map List.concat] in *.
  inversion Hn as [|? ? Hd Hds]; subst.
  rewrite decl_line_text, <- !app_assoc. cbn [app]. rewrite sx_line.
  - rewrite IH by exact Hds. cbn [flat_map]. rewrite app_assoc. reflexivity.
  - apply sx_ok_node. constructor; [split; [discriminate|reflexivity]|]. constructor; [|constructor; [apply sort_sx_ok|constructor]].
    apply (symbol_ok_word lenient). apply legal_symbol. exact Hd.
Qed.

Lemma footer_text m x : footer (sx_text m) (sx_text x) =
  sx_text (assert_sx m x) ++ nl :: sx_text (Node [Atom (str "check-sat")]) ++ nl :: sx_text (Node [Atom (str "exit")]) ++ [nl].
Proof. unfold footer, assert_sx. cbn [sx_text map sep_by]. rewrite <- !app_assoc. reflexivity. Qed.

Lemma footer_tokens m x : sx_ok m -> sx_ok x ->
  tokens_from false [] (footer (sx_text m) (sx_text x)) =
  flat_map sx_toks [assert_sx m x; Node [Atom (str "check-sat")]; Node [Atom (str "exit")]].
Proof.
  intros Hm Hx. rewrite footer_text. rewrite sx_line.
  - rewrite sx_line by (cbn; repeat split; discriminate).
    rewrite sx_line by (cbn; repeat split; discriminate).
    cbn [flat_map]. rewrite ?app_nil_r. reflexivity.
  - unfold assert_sx. apply sx_ok_node. constructor; [split; [discriminate|reflexivity]|].
    constructor; [|constructor]. apply sx_ok_node. constructor; [split; [discriminate|reflexivity]|].
    constructor; [|constructor]. apply sx_ok_node. constructor; [split; [discriminate|reflexivity]|]. auto.
Qed.

Lemma firsts_in l : forall s x, In x (firsts s l) <-> In x l /\ ~ In x s.
Proof.
  induction l as [|y l IH]; intros s x; cbn [firsts]; [cbn; tauto|]. fold (seen y s).
  destruct (seen y s) eqn:S.
  - apply seen_in in S. rewrite IH. cbn. split; [tauto|]. intros [[->|H] N]; [contradiction|tauto].
  - assert (N : ~ In y s) by (rewrite <- seen_in; congruence). cbn. rewrite IH. cbn.
    destruct (text_eq_dec y x) as [->|D]; [tauto|]. tauto.
Qed.
Lemma firsts_nodup l : forall s, NoDup (firsts s l).
Proof.
  induction l as [|y l IH]; intros s; cbn [firsts]; [constructor|]. destruct (existsb _ s); [apply IH|].
  constructor; [|apply IH]. rewrite firsts_in. cbn. tauto.
Qed.
Lemma decls_names G r : names (decls G r) = firsts [] (rule_vars r).
Proof. unfold decls, names. rewrite map_map. cbn. apply map_id. Qed.

Lemma no_cr l x : symbol_ok l x = true -> ~ In cr x.
Proof.
  intros E. apply symbol_ok_word in E. destruct E as [_ E]. intros Hc. rewrite forallb_forall in E.
  specialize (E cr Hc). discriminate.
Qed.

Lemma script_tokens G r : rule_typed G r -> names_ok (rule_vars r) -> ~ In cr (rule_text r) ->
  tokens (script G r) = flat_map sx_toks (script_sx G r).
Proof.
  intros [t [TM TR]] Hn Hc. unfold tokens, script, script_sx.
  assert (Hm : names_ok (value_vars (r_match r)) /\ names_ok (value_vars (r_result r))) by (apply Forall_app; exact Hn).
  rewrite header_tokens, comment_block_eaten by exact Hc. rewrite decl_tokens.
  - rewrite (vexpr_sx G _ _ TM), (vexpr_sx G _ _ TR). rewrite footer_tokens.
    + rewrite !flat_map_app. reflexivity.
    + eapply vsx_ok; [exact TM|tauto].
    + eapply vsx_ok; [exact TR|tauto].
  - rewrite decls_names. apply Forall_forall. intros x Hx. apply firsts_in in Hx.
    unfold names_ok in Hn. rewrite Forall_forall in Hn. apply Hn. tauto.
Qed.

Lemma all_some_app {A B} (f : A -> option B) a b xs ys :
  all_some f a = Some xs -> all_some f b = Some ys -> all_some f (a ++ b) = Some (xs ++ ys).
Proof.
  revert xs. induction a as [|u a IH]; cbn; intros xs E F; [inversion E; exact F|].
  destruct (f u); [|discriminate]. destruct (all_some f a) eqn:Ea; [|discriminate]. inversion E; subst.
  fold (all_some f). rewrite (IH l eq_refl F). reflexivity.
Qed.

Lemma read_script_ok G r : rule_typed G r -> names_ok (rule_vars r) -> ~ In cr (rule_text r) ->
  read_script lenient (script G r) = Some (script_cmds G r).
Proof.
  intros HT Hn Hc. pose proof HT as [t [TM TR]]. unfold read_script. rewrite script_tokens by assumption.
  rewrite sx_read_all. unfold script_sx, script_cmds.
  change (SetInfo (str "smt-lib-version") (str "2.6") :: SetLogic (str "QF_BV") :: ?z)
    with ([SetInfo (str "smt-lib-version") (str "2.6"); SetLogic (str "QF_BV")] ++ z).
  apply all_some_app; [reflexivity|]. apply all_some_app.
  - apply all_some_map. apply Forall_forall. intros d Hd.
    assert (Hl : legal_name lenient (fst d) = true).
    { apply (in_map fst) in Hd. fold (names (decls G r)) in Hd. rewrite decls_names in Hd. apply firsts_in in Hd.
      unfold names_ok in Hn. rewrite Forall_forall in Hn. apply Hn. tauto. }
    unfold decl_sx. cbn [read_command].
    change (text_eqb (str "declare-const") (str "set-info")) with false.
    change (text_eqb (str "declare-const") (str "set-logic")) with false.
    change (text_eqb (str "declare-const") (str "declare-const")) with true.
    rewrite legal_symbol by exact Hl. rewrite read_sort_sx. reflexivity.
  - assert (Hm : names_ok (value_vars (r_match r)) /\ names_ok (value_vars (r_result r))) by (apply Forall_app; exact Hn).
    cbn. rewrite (read_vsx G _ _ TM), (read_vsx G _ _ TR) by tauto. reflexivity.
Qed.
End Lenient.
