(** The printer writes a fixed sequence of items. *)
From Verif Require Import Text GoAst Ast Printer SpecPrint.
From Coq Require Import Arith Bool.

Inductive item := Say (t : text) | Bad (typ : text).

Fixpoint says (l : list item) : text :=
  match l with [] => [] | Say t :: l' => t ++ says l' | Bad _ :: l' => says l' end.
Fixpoint bads (l : list item) : list text :=
  match l with [] => [] | Say _ :: l' => bads l' | Bad t :: l' => t :: bads l' end.
(** The pieces before the first Bad. *)
Fixpoint pieces (l : list item) : list text :=
  match l with [] => [] | Say t :: l' => t :: pieces l' | Bad _ :: _ => [] end.

Lemma says_app a b : says (a ++ b) = says a ++ says b.
Proof. induction a as [|[t|t] a IH]; cbn; rewrite ?IH, ?app_assoc; reflexivity. Qed.
Lemma bads_app a b : bads (a ++ b) = bads a ++ bads b.
Proof. induction a as [|[t|t] a IH]; cbn; rewrite ?IH; reflexivity. Qed.

Lemma pieces_prefix l : prefix (List.concat (pieces l)) (says l).
Proof.
  induction l as [|[t|t] l [q IH]]; cbn.
  - exists []. reflexivity.
  - exists q. rewrite IH, app_assoc. reflexivity.
  - eexists. reflexivity.
Qed.
Lemma pieces_all l : bads l = [] -> List.concat (pieces l) = says l.
Proof. induction l as [|[t|t] l IH]; cbn; intros H; [reflexivity|rewrite IH by exact H; reflexivity|discriminate]. Qed.

Fixpoint d_sepn (i : nat) (l : list (list item)) : list item :=
  match l with [] => [] | d :: l' => (if 0 <? i then [Say (str ", ")] else []) ++ d ++ d_sepn (S i) l' end.
Definition d_sep (l : list (list item)) : list item := d_sepn 0 l.
Fixpoint d_go (e : gexpr) : list item :=
  match e with
  | GIdent _ x => [Say x]
  | GBasicLit _ _ v => [Say v]
  | GParen _ x _ => Say (str "(") :: d_go x ++ [Say (str ")")]
  | GUnary _ o x => Say (tok_string o) :: d_go x
  | GBinary x _ o y => d_go x ++ Say (op_text o) :: d_go y
  | GCall f _ args _ _ => d_go f ++ Say (str "(") :: d_sep (map d_go args) ++ [Say (str ")")]
  | GStar _ x => Say (str "*") :: d_go x
  | GSelector x _ sel => d_go x ++ [Say (str "." ++ sel)]
  | GOther t => [Bad t]
  | GNil => [Bad nil_name]
  end.
Fixpoint d_alts (sep : ascii) (alts : list text) : list item :=
  match alts with [] => [] | c :: alts' => Say (sep :: c) :: d_alts "|"%char alts' end.
Definition d_part (p : oppart) : list item :=
  match p with
  | PCode c => [Say c]
  | PAlt alts => d_alts "("%char alts ++ [Say (str ")")]
  | PNilPart => [Bad nil_name]
  end.
Definition d_op (o : op) : list item :=
  match o with Opcode c => [Say c] | OpcodeParts ps => flat_map d_part ps | NilOp => [Bad nil_name] end.
Definition d_given (t : text) (f : text -> text) : list item := match t with [] => [] | _ => [Say (f t)] end.
Definition d_set (o : option gexpr) (a b : text) : list item :=
  match o with None => [] | Some e => Say a :: d_go e ++ [Say b] end.
Definition d_cond (o : option gexpr) : list item :=
  match o with None => [] | Some e => Say (str " && ") :: d_go e end.
Fixpoint d_value (v : value) : list item :=
  match v with
  | SExp s =>
      d_given (s_binding s) (fun b => b ++ str ":") ++ [Say (str "(")] ++ d_op (s_op s) ++
      d_given (s_type s) (fun t => str " <" ++ t ++ str ">") ++
      d_set (s_auxint s) (str " [") (str "]") ++ d_set (s_aux s) (str " {") (str "}") ++
      flat_map (fun a => Say (str " ") :: d_value a) (s_args s) ++
      (if s_ellipsis s then [Say (str " ...")] else []) ++
      (if s_trailing s then [Say (str " ___")] else []) ++ [Say (str ")")]
  | EVal e => d_go e
  | Var x => [Say x]
  | NilValue => [Bad nil_name]
  end.
Definition d_rule (r : rule) : list item :=
  d_value (r_match r) ++ d_cond (r_cond r) ++ [Say (str " => ")] ++
  d_given (r_block r) (fun b => str "@" ++ b ++ str " ") ++ d_value (r_result r).
Definition d_node (n : node) : list item :=
  match n with
  | NFile f => flat_map (fun r => d_rule r ++ [Say [nl]]) (f_rules f)
  | NRule r => d_rule r
  | NSExpr s => d_value (SExp s)
  | NExpr e => d_value (EVal e)
  | NVar x => d_value (Var x)
  | NOpcode c => d_op (Opcode c)
  | NParts ps => d_op (OpcodeParts ps)
  | NAlt _ | NNil => [Bad (node_type n)]
  end.

Lemma tok_prec_spaced o : (tok_prec o <? tok_prec ADD) = spaced o.
Proof. destruct o; reflexivity. Qed.

Section Run.
  Context {W : Type}.
  Variable write : W -> text -> W * option text.
  Definition step (i : item) (p : printer W) : printer W :=
    match i with
    | Say t => printf write t p
    | Bad t => seterror (Some (unexpected_type t)) p
    end.
  Definition run (l : list item) (p : printer W) : printer W := fold_left (fun p i => step i p) l p.

  Lemma run_app a b p : run (a ++ b) p = run b (run a p).
  Proof. apply fold_left_app. Qed.
  Lemma run_cons a b p : run (a :: b) p = run b (step a p).
  Proof. reflexivity. Qed.

  Lemma run_go e : forall p, p_goexpr write e p = run (d_go e) p.
  Proof.
    induction e using gexpr_ind'; intros p0; cbn [p_goexpr d_go]; try reflexivity.
    - rewrite run_cons, run_app, IHe. reflexivity.
    - rewrite run_cons, IHe. reflexivity.
    - rewrite run_app, run_cons, IHe1, IHe2. cbn [step]. unfold op_text. rewrite tok_prec_spaced.
      destruct (spaced o); reflexivity.
    - rewrite run_app, run_cons, run_app, IHe. cbn [step].
      set (q := printf write _ (run (d_go e) p0)). clearbody q.
      unfold run at 1. cbn [fold_left step]. f_equal.
      unfold d_sep. assert (Hg : forall i q, print_args write (fun a : gexpr => p_goexpr write a) i args q = run (d_sepn i (map d_go args)) q); [|apply Hg]. clear q.
      induction H as [|a la Ha _ IH]; intros i q; cbn [print_args map d_sepn]; [reflexivity|].
      rewrite !run_app, Ha, IH. destruct (0 <? i); reflexivity.
    - rewrite run_cons, IHe. reflexivity.
    - rewrite run_app, IHe. reflexivity.
  Qed.

  Lemma run_alts sep alts : forall p, print_alts write sep alts p = run (d_alts sep alts) p.
  Proof. revert sep. induction alts as [|c alts IH]; intros sep p; cbn; [reflexivity|]. rewrite IH. reflexivity. Qed.

  Lemma run_part o p : p_oppart write o p = run (d_part o) p.
  Proof. destruct o; cbn [p_oppart d_part]; try reflexivity. rewrite run_app, run_alts. reflexivity. Qed.

  Lemma run_flat {A} (f : A -> list item) (g : printer W -> A -> printer W) l :
    Forall (fun a => forall p, g p a = run (f a) p) l ->
    forall p, fold_left g l p = run (flat_map f l) p.
  Proof. induction 1 as [|a l Ha _ IH]; intros p; cbn; [reflexivity|]. rewrite run_app, <- Ha, IH. reflexivity. Qed.

  Lemma run_op o p : p_op write o p = run (d_op o) p.
  Proof.
    destruct o; cbn [p_op d_op]; try reflexivity.
    apply run_flat. apply Forall_forall. intros; apply run_part.
  Qed.

  Lemma run_given t f p : match t with [] => p | a :: l => printf write (f (a :: l)) p end = run (d_given t f) p.
  Proof. destruct t; reflexivity. Qed.
  Lemma run_set o a b p :
    match o with None => p | Some e => printf write b (p_goexpr write e (printf write a p)) end = run (d_set o a b) p.
  Proof. destruct o; cbn [d_set]; [|reflexivity]. rewrite run_cons, run_app, <- run_go. reflexivity. Qed.

  Lemma run_value v : forall p, p_value write v p = run (d_value v) p.
  Proof.
    induction v as [s IH|e|x|] using value_ind'; intros p; cbn [p_value d_value]; try reflexivity.
    2: apply run_go.
    unfold p_sexpr. rewrite !run_app.
    rewrite (run_given (s_binding s) (fun b => b ++ str ":")), run_op.
    rewrite (run_given (s_type s) (fun t => str " <" ++ t ++ str ">")), !run_set.
    rewrite (run_flat (fun a => Say (str " ") :: d_value a)).
    2: { eapply Forall_impl; [|exact IH]. cbn. intros a Ha q. rewrite Ha. reflexivity. }
    destruct (s_ellipsis s), (s_trailing s); reflexivity.
  Qed.

  Lemma run_rule r p : p_rule write r p = run (d_rule r) p.
  Proof.
    unfold p_rule, d_rule. rewrite !run_app, <- !run_value.
    rewrite (run_given (r_block r) (fun b => str "@" ++ b ++ str " ")).
    destruct (r_cond r); cbn [d_cond]; rewrite ?run_cons, <- ?run_go; reflexivity.
  Qed.

  Lemma run_node n p : p_node write n p = run (d_node n) p.
  Proof.
    destruct n; cbn [p_node d_node]; try reflexivity; try apply run_rule; try apply run_value; try apply run_op.
    apply run_flat. apply Forall_forall. intros r _ q. rewrite run_app, <- run_rule. reflexivity.
  Qed.

  Lemma run_stuck l w e : run l {| p_w := w; p_err := Some e |} = {| p_w := w; p_err := Some e |}.
  Proof. induction l as [|[t|t] l IH]; [reflexivity|..]; rewrite run_cons; exact IH. Qed.

  Lemma run_feed l w :
    run l {| p_w := w; p_err := None |} =
    match feed write w (pieces l) with
    | (w', Some e) => {| p_w := w'; p_err := Some e |}
    | (w', None) => {| p_w := w'; p_err := option_map unexpected_type (hd_error (bads l)) |}
    end.
  Proof.
    revert w. induction l as [|[t|t] l IH]; intros w; [reflexivity|..]; rewrite run_cons; cbn [step pieces bads feed hd_error].
    - unfold printf. cbn [p_err p_w]. destruct (write w t) as [w' [e|]]; cbn [seterror p_err].
      + apply run_stuck.
      + apply IH.
    - cbn. apply run_stuck.
  Qed.
End Run.

Lemma says_sepn l : forall i, says (d_sepn (S i) l) = List.concat (map (fun t => str ", " ++ says t) l).
Proof.
  induction l as [|d l IH]; intros i; [reflexivity|].
  cbn [d_sepn]. rewrite !says_app, IH. cbn [map List.concat]. cbn. rewrite ?app_nil_r, ?app_assoc. reflexivity.
Qed.
Lemma says_sep l : says (d_sep l) = sep_by (str ", ") (map says l).
Proof.
  unfold d_sep. destruct l as [|d l]; [reflexivity|]. cbn [d_sepn]. change (0 <? 0) with false.
  cbn [app]. rewrite says_app, says_sepn. revert d. induction l as [|d' l IH]; intros d.
  - cbn. apply app_nil_r.
  - cbn [map List.concat]. rewrite <- app_assoc, IH. reflexivity.
Qed.
Lemma bads_sepn l : forall i, bads (d_sepn i l) = flat_map bads l.
Proof.
  induction l as [|d l IH]; intros i; [reflexivity|]. cbn [d_sepn].
  rewrite !bads_app, IH. destruct (0 <? i); reflexivity.
Qed.
Lemma bads_sep l : bads (d_sep l) = flat_map bads l.
Proof. apply bads_sepn. Qed.

Lemma map_ext_F {A B} (f g : A -> B) l : Forall (fun a => f a = g a) l -> map f l = map g l.
Proof. induction 1; cbn; congruence. Qed.
Lemma flat_map_ext_F {A B} (f g : A -> list B) l : Forall (fun a => f a = g a) l -> flat_map f l = flat_map g l.
Proof. induction 1; cbn; congruence. Qed.
Lemma flat_map_map {A B C} (f : B -> list C) (g : A -> B) l : flat_map f (map g l) = flat_map (fun a => f (g a)) l.
Proof. induction l; cbn; congruence. Qed.
Lemma says_flat {A} (f : A -> list item) l : says (flat_map f l) = List.concat (map (fun a => says (f a)) l).
Proof. induction l as [|a l IH]; cbn; [reflexivity|]. rewrite says_app, IH. reflexivity. Qed.
Lemma bads_flat {A} (f : A -> list item) l : bads (flat_map f l) = flat_map (fun a => bads (f a)) l.
Proof. induction l as [|a l IH]; cbn; [reflexivity|]. rewrite bads_app, IH. reflexivity. Qed.

Lemma says_go e : says (d_go e) = go_text e.
Proof.
  induction e using gexpr_ind'; cbn [d_go go_text]; rewrite ?says_app; cbn [says]; rewrite ?says_app; cbn [says];
    rewrite ?app_nil_r, ?IHe, ?IHe1, ?IHe2; try reflexivity.
  rewrite says_sep, map_map. do 3 f_equal. erewrite map_ext_F; [reflexivity|exact H].
Qed.
Lemma bads_go e : bads (d_go e) = go_bad e.
Proof.
  induction e using gexpr_ind'; cbn [d_go go_bad]; rewrite ?bads_app; cbn [bads]; rewrite ?bads_app; cbn [bads];
    rewrite ?app_nil_r, ?IHe, ?IHe1, ?IHe2; try reflexivity.
  rewrite bads_sep, flat_map_map. f_equal. apply flat_map_ext_F. exact H.
Qed.

Lemma says_alts sep alts : alts <> [] -> says (d_alts sep alts) = sep :: sep_by (str "|") alts.
Proof.
  revert sep. induction alts as [|c [|c' alts] IH]; intros sep H; [congruence|..].
  - cbn. rewrite app_nil_r. reflexivity.
  - change (says (d_alts sep (c :: c' :: alts))) with ((sep :: c) ++ says (d_alts "|"%char (c' :: alts))).
    rewrite IH by congruence. reflexivity.
Qed.
Lemma bads_alts sep alts : bads (d_alts sep alts) = [].
Proof. revert sep. induction alts; intros; cbn; auto. Qed.

Lemma says_part p : says (d_part p) = part_text p.
Proof.
  destruct p as [c|[|c alts]|]; cbn [d_part part_text]; [apply app_nil_r|reflexivity| |reflexivity].
  rewrite says_app, says_alts by congruence. cbn. rewrite ?app_nil_r. reflexivity.
Qed.
Lemma bads_part p : bads (d_part p) = part_bad p.
Proof. destruct p; cbn; rewrite ?bads_app, ?bads_alts; reflexivity. Qed.
Lemma says_op o : says (d_op o) = opcode_text o.
Proof.
  destruct o; cbn [d_op opcode_text]; [apply app_nil_r| |reflexivity].
  rewrite says_flat. f_equal. apply map_ext. apply says_part.
Qed.
Lemma bads_op o : bads (d_op o) = op_bad o.
Proof. destruct o; cbn; rewrite ?bads_flat; try reflexivity. apply flat_map_ext. apply bads_part. Qed.
Lemma says_given t f : says (d_given t f) = if_given t f.
Proof. destruct t; cbn [d_given if_given says]; rewrite ?app_nil_r; reflexivity. Qed.
Lemma bads_given t f : bads (d_given t f) = [].
Proof. destruct t; reflexivity. Qed.
Lemma says_set o a b : says (d_set o a b) = if_set o (fun e => a ++ go_text e ++ b).
Proof. destruct o; cbn [d_set if_set says]; rewrite ?says_app, ?says_go; cbn [says]; rewrite ?app_nil_r; reflexivity. Qed.
Lemma bads_set o a b : bads (d_set o a b) = opt_bad o.
Proof. destruct o; cbn [d_set opt_bad bads]; rewrite ?bads_app, ?bads_go; cbn [bads]; rewrite ?app_nil_r; reflexivity. Qed.
Lemma says_if (b : bool) t : says (if b then [Say t] else []) = when b t.
Proof. destruct b; cbn; rewrite ?app_nil_r; reflexivity. Qed.
Lemma bads_if (b : bool) t : bads (if b then [Say t] else []) = [].
Proof. destruct b; reflexivity. Qed.

Lemma says_value v : says (d_value v) = value_text v.
Proof.
  induction v as [s IH|e|x|] using value_ind'; cbn [d_value value_text].
  - rewrite !says_app, !says_given, !says_set, says_op, says_flat, !says_if.
    erewrite map_ext_F with (f := fun a => says (Say (str " ") :: d_value a)).
    2: { eapply Forall_impl; [|exact IH]. intros a Ha. cbn [says]. rewrite Ha. reflexivity. }
    cbn [says]. rewrite !app_nil_r. reflexivity.
  - apply says_go.
  - apply app_nil_r.
  - reflexivity.
Qed.
Lemma bads_value v : bads (d_value v) = value_bad v.
Proof.
  induction v as [s IH|e|x|] using value_ind'; cbn [d_value value_bad]; try reflexivity.
  - rewrite !bads_app, !bads_given, !bads_set, bads_op, bads_flat, !bads_if.
    erewrite flat_map_ext_F with (f := fun a => bads (Say (str " ") :: d_value a)).
    2: { eapply Forall_impl; [|exact IH]. intros a Ha. cbn [bads]. rewrite Ha. reflexivity. }
    cbn [bads app]. rewrite ?app_nil_r. reflexivity.
  - apply bads_go.
Qed.
Lemma says_rule r : says (d_rule r) = rule_text r.
Proof.
  unfold d_rule, rule_text. rewrite !says_app, !says_value, says_given. cbn [says].
  destruct (r_cond r); cbn [d_cond if_set says]; rewrite ?says_go, ?app_nil_r; reflexivity.
Qed.
Lemma bads_rule r : bads (d_rule r) = rule_bad r.
Proof.
  unfold d_rule, rule_bad. rewrite !bads_app, !bads_value, bads_given. cbn [bads app].
  destruct (r_cond r); cbn [d_cond opt_bad bads]; rewrite ?bads_go; reflexivity.
Qed.
Lemma says_node n : says (d_node n) = node_text n.
Proof.
  destruct n; cbn [d_node node_text]; try reflexivity; try apply says_rule; try (apply app_nil_r).
  - rewrite says_flat. unfold file_text. f_equal. apply map_ext. intros r. rewrite says_app, says_rule. reflexivity.
  - apply says_value.
  - apply (says_value (EVal e)).
  - apply (says_op (OpcodeParts ps)).
Qed.
Lemma bads_node n : bads (d_node n) = node_bad n.
Proof.
  destruct n; cbn [d_node node_bad]; try reflexivity; try apply bads_rule.
  - rewrite bads_flat. apply flat_map_ext. intros r. rewrite bads_app, bads_rule. cbn. apply app_nil_r.
  - apply bads_value.
  - apply (bads_value (EVal e)).
  - apply (bads_op (OpcodeParts ps)).
Qed.

Lemma Fprint_feed {W} write (w : W) n :
  Fprint write w n =
  match feed write w (pieces (d_node n)) with
  | (w', Some e) => (w', Some e)
  | (w', None) => (w', option_map unexpected_type (hd_error (node_bad n)))
  end.
Proof.
  unfold Fprint. rewrite run_node, run_feed, bads_node.
  destruct (feed write w (pieces (d_node n))) as [w' [e|]]; reflexivity.
Qed.

Lemma feed_buf l b : feed buf_write b l = (b ++ List.concat l, None).
Proof. revert b. induction l as [|t l IH]; intros b; cbn; [rewrite app_nil_r; reflexivity|]. rewrite IH, app_assoc. reflexivity. Qed.

Lemma Bytes_eq n :
  Bytes n = match node_bad n with [] => Ok (node_text n) | t :: _ => Err (unexpected_type t) end.
Proof.
  unfold Bytes. rewrite Fprint_feed, feed_buf. destruct (node_bad n) eqn:E; cbn [hd_error option_map]; [|reflexivity].
  rewrite pieces_all by (rewrite bads_node; exact E). rewrite says_node. reflexivity.
Qed.

Lemma Fprint_pieces n : exists ps,
  prefix (List.concat ps) (node_text n) /\
  (node_bad n = [] -> List.concat ps = node_text n) /\
  forall (W : Type) (write : W -> text -> W * option text) (w : W),
    Fprint write w n =
    match feed write w ps with
    | (w', Some e) => (w', Some e)
    | (w', None) => (w', option_map unexpected_type (hd_error (node_bad n)))
    end.
Proof.
  exists (pieces (d_node n)). repeat split.
  - rewrite <- says_node. apply pieces_prefix.
  - intros H. rewrite <- says_node. apply pieces_all. rewrite bads_node. exact H.
  - intros. apply Fprint_feed.
Qed.
