(** Facts about goroutines that share memory: the parser behaves the same at other addresses. *)
From Verif Require Import Text GoAst Ast Utf8 GoExpr Peg Grammar Parse Heap HeapParse HeapFacts HeapParseFacts ConcFacts.
From Coq Require Import Arith Lia Bool.
Open Scope nat_scope.
Open Scope list_scope.

(** ** Values *)
Inductive hvrel (w : world) : hval -> hval -> Prop :=
| hr_nil : hvrel w HVNil HVNil
| hr_bytes b : hvrel w (HVBytes b) (HVBytes b)
| hr_slice l m : Forall2 (hvrel w) l m -> hvrel w (HVSlice l) (HVSlice m)
| hr_file p q : fseen w p q -> fowned w p q -> hvrel w (HVFile p) (HVFile q)
| hr_rule p q : seen w p q -> hvrel w (HVRule p) (HVRule q)
| hr_value x y : wrel w x y -> hvrel w (HVValue x) (HVValue y)
| hr_opcode c : hvrel w (HVOpcode c) (HVOpcode c)
| hr_parts p q : seen w p q -> hvrel w (HVParts p) (HVParts q)
| hr_alt a : hvrel w (HVAlt a) (HVAlt a)
| hr_type t : hvrel w (HVType t) (HVType t)
| hr_auxint p q : seen w p q -> hvrel w (HVAuxInt p) (HVAuxInt q)
| hr_aux p q : seen w p q -> hvrel w (HVAux p) (HVAux q)
| hr_string s : hvrel w (HVString s) (HVString s).
Lemma hvrel_le w w' : le w w' -> forall x y, hvrel w x y -> hvrel w' x y.
Proof.
  intros L x. induction x as [l IH|x N] using hval_ind'; intros y R.
  - inversion R as [| |l' m F| | | | | | | | | |]; subst. constructor. revert m F R. induction IH as [|a l Ha _ IHl]; intros m F R; inversion F; subst; constructor; auto. apply IHl; [assumption|constructor; assumption].
  - inversion R; subst; try (constructor; apply L; assumption); try constructor.
    + destruct (N l eq_refl).
    + eauto with conc.
Qed.
Definition hvrels (w : world) := Forall2 (hvrel w).
Lemma hvrels_le w w' : le w w' -> forall x y, hvrels w x y -> hvrels w' x y.
Proof. intros L x y F. eapply Forall2_weak; [|exact F]. intros a b _. apply hvrel_le. exact L. Qed.
Definition erel (w : world) : henv -> henv -> Prop := Forall2 (fun a b => fst a = fst b /\ hvrel w (snd a) (snd b)).
Lemma erel_le w w' : le w w' -> forall x y, erel w x y -> erel w' x y.
Proof. intros L x y F. eapply Forall2_weak; [|exact F]. intros a b _ [E R]. split; [exact E|eapply hvrel_le; eauto]. Qed.
Global Hint Resolve hvrel_le hvrels_le erel_le : conc.
Lemma erel_get w x y l : erel w x y -> hvrel w (henv_get x l) (henv_get y l).
Proof. intros F. induction F as [|[k a] [k' b] x y [E R] F IH]; cbn in *; [constructor|]. subst k'. destruct (text_eqb k l); assumption. Qed.

Lemma sim_elem {U} w x y i j k : hvrel w x y ->
  (forall a b, hvrel w a b -> sim U w (j a) (k b)) -> sim U w (helem x i j) (helem y i k).
Proof.
  intros R K. inversion R as [| |l m F| | | | | | | | | |]; subst; cbn [helem]; try apply sim_panics.
  pose proof (Forall2_nth _ _ _ F i) as N. destruct (nth_error l i), (nth_error m i); try contradiction; [apply K; exact N|apply sim_panics].
Qed.
Ltac clash := try (apply sim_panics); try (apply sim_fails).

(** ** Actions *)
Section Actions.
  Variable gp : text -> res gexpr.
  Variable spare : nat -> nat -> nat.
  Lemma sim_on_file is is' : forall w s t, hvrels w is is' -> mrel w s t -> sim hvrel w (hon_file spare is s) (hon_file spare is' t).
  Proof.
    revert is'. induction is as [|i is IH]; intros is' w s t F M; inversion F; subst; cbn [hon_file].
    - eapply sim_bind; [apply sim_allocf; exact (proj1 M)|]. intros w' a b L [S O]. apply sim_ret. constructor; [exact S|exact O].
    - apply sim_elem; [assumption|]. intros a b R. inversion R; subst; clash.
      eapply sim_bind; [apply sim_append; [exact M|constructor; [cbn; assumption|constructor]]|]. intros w' s' t' L M'. apply IH; [eauto with conc|exact M'].
  Qed.
  Lemma sim_on_rule w m c b r m' c' b' r' : hvrel w m m' -> hvrel w c c' -> hvrel w b b' -> hvrel w r r' ->
    sim hvrel w (hon_rule m c b r) (hon_rule m' c' b' r').
  Proof.
    intros Rm Rc Rb Rr. unfold hon_rule.
    destruct m as [| | | | |x| | | | | | |]; try (inversion Rm; subst; clash; fail). destruct m' as [| | | | |y| | | | | | |]; try (inversion Rm; fail).
    assert (Hm : wrel w x y) by (inversion Rm; assumption).
    destruct r as [| | | | |x'| | | | | | |]; try (inversion Rr; subst; clash; fail). destruct r' as [| | | | |y'| | | | | | |]; try (inversion Rr; fail).
    assert (Hr : wrel w x' y') by (inversion Rr; assumption). cbn zeta.
    assert (X : forall p q, prel w p q ->
      sim hvrel w
        match b with
        | HVNil => do a <- alloc (CRule {| h_match := x; h_cond := p; h_block := []; h_result := x' |}); ret (HVRule a)
        | HVString z => do a <- alloc (CRule {| h_match := x; h_cond := p; h_block := z; h_result := x' |}); ret (HVRule a)
        | _ => hassert "string" end
        match b' with
        | HVNil => do a <- alloc (CRule {| h_match := y; h_cond := q; h_block := []; h_result := y' |}); ret (HVRule a)
        | HVString z => do a <- alloc (CRule {| h_match := y; h_cond := q; h_block := z; h_result := y' |}); ret (HVRule a)
        | _ => hassert "string" end).
    { intros p q Hp. inversion Rb; subst; clash; (eapply sim_bind; [apply sim_alloc; cbn; unfold hrrel; cbn; auto|]; intros w' u v L [S _]; apply sim_ret; constructor; exact S). }
    inversion Rc; subst; clash; [exact (X None None I)|]. apply (sim_elem w _ _ 3 _ _ Rc). intros a0 b0 R0. inversion R0 as [| | | | |u v Hu| | | | | | |]; subst; clash.
    destruct u, v; cbn in Hu; try contradiction; clash. apply X. exact Hu.
  Qed.
  Lemma sim_on_alt is is' : forall w acc, hvrels w is is' -> sim hvrel w (hon_alt is acc) (hon_alt is' acc).
  Proof.
    revert is'. induction is as [|i is IH]; intros is' w acc F; inversion F; subst; cbn [hon_alt]; [apply sim_ret; constructor|].
    apply sim_elem; [assumption|]. intros a b R. inversion R; subst; clash. apply IH. assumption.
  Qed.
  Lemma sim_on_op is is' : forall w acc, hvrels w is is' -> sim hvrel w (hon_op is acc) (hon_op is' acc).
  Proof.
    revert is'. induction is as [|i is IH]; intros is' w acc F; inversion F as [|a b l m R F']; subst; cbn [hon_op].
    - assert (X : sim hvrel w (do a <- alloc (CParts acc); ret (HVParts a)) (do a <- alloc (CParts acc); ret (HVParts a))).
      { eapply sim_bind; [apply sim_alloc; reflexivity|]. intros w' u v L [S _]. apply sim_ret. constructor. exact S. }
      destruct acc as [|[c|c|] [|]]; try exact X. apply sim_ret. constructor.
    - inversion R; subst; clash; apply IH; assumption.
  Qed.
  (** The node being filled in: its arguments may be appended to. *)
  Definition frel (w : world) (s t : hsexpr) : Prop := hsrel w s t /\ mrel w (h_args s) (h_args t).
  Lemma frel_le w w' s t : le w w' -> frel w s t -> frel w' s t.
  Proof. intros L [A B]. split; eauto with conc. Qed.
  Lemma sim_on_operands is is' : forall w s t j k, hvrels w is is' -> frel w s t ->
    (forall w' x y, le w w' -> frel w' x y -> sim hvrel w' (j x) (k y)) -> sim hvrel w (hon_operands spare is s j) (hon_operands spare is' t k).
  Proof.
    revert is'. induction is as [|i is IH]; intros is' w s t j k F Fr K; inversion F as [|a0 b0 l0 m0 R0 F']; subst; cbn [hon_operands]; [apply K; auto with conc|].
    apply sim_elem; [assumption|]. intros a b R. destruct Fr as [(A & B & C & D & E & G & H & J) M].
    inversion R; subst; clash; try (apply IH; [assumption|split; [|exact M]; unfold hsrel; cbn; auto 10|exact K]).
    eapply sim_bind; [apply sim_append; [exact M|constructor; [eassumption|constructor]]|]. intros w' u v L M'. apply IH; [eauto with conc| |].
    - split; [|exact M']. unfold hsrel. cbn. pose proof (proj1 M'). eauto 12 with conc.
    - intros w2 p q L2 Fr. apply K; [exact (ConcFacts.le_trans _ _ _ L L2)|exact Fr].
  Qed.
  Lemma is_nil_rel w x y : hvrel w x y -> (match x with HVNil => false | _ => true end) = (match y with HVNil => false | _ => true end).
  Proof. intros R. inversion R; reflexivity. Qed.
  Lemma sim_on_sexpr w b o p e t b' o' p' e' t' : hvrel w b b' -> hvrel w o o' -> hvrel w p p' -> hvrel w e e' -> hvrel w t t' ->
    sim hvrel w (hon_sexpr spare b o p e t) (hon_sexpr spare b' o' p' e' t').
  Proof.
    intros Rb Ro Rp Re Rt. unfold hon_sexpr. cbn zeta. rewrite (is_nil_rel _ _ _ Re), (is_nil_rel _ _ _ Rt).
    set (el := match e' with HVNil => false | _ => true end). set (tr := match t' with HVNil => false | _ => true end).
    assert (X : forall x y z, orel w x y ->
      sim hvrel w
        match p with
        | HVSlice is => hon_operands spare is {| h_binding := z; h_op := x; h_type := []; h_auxint := None; h_aux := None; h_args := nil_slice; h_ellipsis := false; h_trailing := false |}
            (fun s => do a <- alloc (CSExpr {| h_binding := h_binding s; h_op := h_op s; h_type := h_type s; h_auxint := h_auxint s; h_aux := h_aux s; h_args := h_args s; h_ellipsis := el; h_trailing := tr |});
                      ret (HVValue (WSExpr (Some a))))
        | _ => hassert "[]interface {}" end
        match p' with
        | HVSlice is => hon_operands spare is {| h_binding := z; h_op := y; h_type := []; h_auxint := None; h_aux := None; h_args := nil_slice; h_ellipsis := false; h_trailing := false |}
            (fun s => do a <- alloc (CSExpr {| h_binding := h_binding s; h_op := h_op s; h_type := h_type s; h_auxint := h_auxint s; h_aux := h_aux s; h_args := h_args s; h_ellipsis := el; h_trailing := tr |});
                      ret (HVValue (WSExpr (Some a))))
        | _ => hassert "[]interface {}" end).
    { intros x y z Hx. inversion Rp; subst; clash. apply sim_on_operands; [assumption| |].
      - split; [|apply mrel_nil]. unfold hsrel. cbn. pose proof (proj1 (mrel_nil w)). auto 12.
      - intros w' s s' L [(A & B & C & D & E & G & Hh & J) _]. eapply sim_bind; [apply sim_alloc; cbn; unfold hsrel; cbn; auto 10|]. intros w2 u v L2 [S _]. apply sim_ret. constructor. exact S. }
    assert (Y : forall x y, orel w x y ->
      sim hvrel w
        match b with
        | HVNil => match p with
        | HVSlice is => hon_operands spare is {| h_binding := []; h_op := x; h_type := []; h_auxint := None; h_aux := None; h_args := nil_slice; h_ellipsis := false; h_trailing := false |}
            (fun s => do a <- alloc (CSExpr {| h_binding := h_binding s; h_op := h_op s; h_type := h_type s; h_auxint := h_auxint s; h_aux := h_aux s; h_args := h_args s; h_ellipsis := el; h_trailing := tr |});
                      ret (HVValue (WSExpr (Some a))))
        | _ => hassert "[]interface {}" end
        | _ => helem b 0 (fun v => match v with HVValue (WVar z) => match p with
        | HVSlice is => hon_operands spare is {| h_binding := z; h_op := x; h_type := []; h_auxint := None; h_aux := None; h_args := nil_slice; h_ellipsis := false; h_trailing := false |}
            (fun s => do a <- alloc (CSExpr {| h_binding := h_binding s; h_op := h_op s; h_type := h_type s; h_auxint := h_auxint s; h_aux := h_aux s; h_args := h_args s; h_ellipsis := el; h_trailing := tr |});
                      ret (HVValue (WSExpr (Some a))))
        | _ => hassert "[]interface {}" end | _ => hassert "ast.Variable" end) end
        match b' with
        | HVNil => match p' with
        | HVSlice is => hon_operands spare is {| h_binding := []; h_op := y; h_type := []; h_auxint := None; h_aux := None; h_args := nil_slice; h_ellipsis := false; h_trailing := false |}
            (fun s => do a <- alloc (CSExpr {| h_binding := h_binding s; h_op := h_op s; h_type := h_type s; h_auxint := h_auxint s; h_aux := h_aux s; h_args := h_args s; h_ellipsis := el; h_trailing := tr |});
                      ret (HVValue (WSExpr (Some a))))
        | _ => hassert "[]interface {}" end
        | _ => helem b' 0 (fun v => match v with HVValue (WVar z) => match p' with
        | HVSlice is => hon_operands spare is {| h_binding := z; h_op := y; h_type := []; h_auxint := None; h_aux := None; h_args := nil_slice; h_ellipsis := false; h_trailing := false |}
            (fun s => do a <- alloc (CSExpr {| h_binding := h_binding s; h_op := h_op s; h_type := h_type s; h_auxint := h_auxint s; h_aux := h_aux s; h_args := h_args s; h_ellipsis := el; h_trailing := tr |});
                      ret (HVValue (WSExpr (Some a))))
        | _ => hassert "[]interface {}" end | _ => hassert "ast.Variable" end) end).
    { intros x y Hx. inversion Rb; subst; clash; [apply X; exact Hx|]. apply (sim_elem w _ _ 0 _ _ Rb). intros a0 b0 R0. inversion R0 as [| | | | |u v Hu| | | | | | |]; subst; clash.
      destruct u, v; cbn in Hu; try contradiction; clash. subst. apply X. exact Hx. }
    inversion Ro; subst; clash; apply Y; cbn; auto.
  Qed.
  Lemma sim_with_goexpr w x j k : (forall w' p q, seen w' p q -> hvrel w' (j p) (k q)) -> sim hvrel w (hwith_goexpr gp x j) (hwith_goexpr gp x k).
  Proof.
    intros K. unfold hwith_goexpr. destruct (goexpr_parse gp x); clash. eapply sim_bind; [apply sim_alloc; reflexivity|]. intros w' a' b' L [S _]. apply sim_ret. apply K. exact S.
  Qed.
  Lemma sim_action w a t x y : erel w x y -> sim hvrel w (hrun_action gp spare a t x) (hrun_action gp spare a t y).
  Proof.
    intros E. pose proof (fun l => erel_get w x y (str l) E) as G. unfold hrun_action. cbn zeta. destruct a.
    all: try (apply sim_ret; constructor; cbn; auto; fail).
    all: try (apply sim_with_goexpr; intros; constructor; cbn; auto; fail).
    - pose proof (G "rs"%string) as R. destruct R; clash. apply sim_on_file; [assumption|apply mrel_nil].
    - apply sim_on_rule; apply G.
    - pose proof (G "first"%string) as R. destruct R; clash. pose proof (G "rest"%string) as R'. destruct R'; clash. apply sim_on_alt. assumption.
    - pose proof (G "parts"%string) as R. destruct R; clash. apply sim_on_op. assumption.
    - apply sim_on_sexpr; apply G.
  Qed.
End Actions.

(** ** The engine *)
Lemma sim_catch {A B} (V : world -> A -> B -> Prop) w m n : sim V w m n -> sim (fun w => rrel (V w)) w (catch m) (catch n).
Proof.
  intros S. induction S as [w r s H|w p q f g Hs _ IH|w c d f g Hc _ IH|w p q c d f g Ho Hc _ IH|w p q f g Hs _ IH|w s t f g Hc _ IH|w p q s t f g Ho Hc _ IH]; cbn [catch];
    [apply sim_done|apply sim_load|apply sim_new|apply sim_store|apply sim_loadf|apply sim_newf|apply sim_storef]; auto.
Qed.
Definition presrel (w : world) (r s : hpres) : Prop :=
  match r, s with
  | HOutOfFuel, HOutOfFuel => True
  | HPPanic m x p, HPPanic m' x' p' => m = m' /\ x = x' /\ p = p'
  | HPRes v ok e p, HPRes v' ok' e' p' => hvrel w v v' /\ ok = ok' /\ erel w e e' /\ p = p'
  | _, _ => False
  end.
Section Engine.
  Context {A : Type}.
  Variable hra : A -> text -> henv -> M hval.
  Variable grammar : text -> option (pexpr A).
  Hypothesis Hact : forall w a t x y, erel w x y -> sim hvrel w (hra a t x) (hra a t y).

  Ltac stp H := eapply sim_bind; [apply H; eauto with conc|];
    let w' := fresh "w'" in let r := fresh "r" in let r' := fresh "r'" in let L := fresh "L" in let R := fresh "R" in
    intros w' r r' L R; destruct r as [|?m ?x ?p|?v ?ok ?e ?p], r' as [|?m ?x ?p|?v ?ok ?e ?p]; cbn in R; try contradiction;
    [apply sim_ret; exact I|destruct R as (-> & -> & ->); apply sim_ret; cbn; auto|destruct R as (?Rv & -> & ?Re & ->)].
  Ltac fin := apply sim_ret; cbn; repeat split; eauto with conc; try constructor; auto with conc.

  Lemma sim_seq (f : pexpr A -> henv -> pstate -> M hpres) start : (forall w e x y s, erel w x y -> sim presrel w (f e x s) (f e y s)) ->
    forall es w l m x y s, hvrels w l m -> erel w x y -> sim presrel w (hseq_loop f start es l x s) (hseq_loop f start es m y s).
  Proof.
    intros H. induction es as [|e es IH]; intros w l m x y s Fl E; cbn [hseq_loop].
    - apply sim_ret. cbn. repeat split; auto. constructor. exact Fl.
    - stp H. destruct ok0; [|fin]. apply IH; [|assumption]. apply Forall2_app; [eapply hvrels_le; eauto|constructor; [assumption|constructor]].
  Qed.
  Lemma sim_choice (f : pexpr A -> henv -> pstate -> M hpres) : (forall w e x y s, erel w x y -> sim presrel w (f e x s) (f e y s)) ->
    forall es w x y s, erel w x y -> sim presrel w (hchoice_loop f es x s) (hchoice_loop f es y s).
  Proof.
    intros H. induction es as [|e es IH]; intros w x y s E; cbn [hchoice_loop]; [fin|].
    eapply sim_bind; [apply (H w e [] []); constructor|]. intros w' r r' L R. destruct r as [| |v ok e1 p], r' as [| |v' ok' e1' p']; cbn in R; try contradiction; [fin|destruct R as (-> & -> & ->); fin|].
    destruct R as (Rv & -> & Re & ->). destruct ok'; [fin|]. apply IH. eauto with conc.
  Qed.
  Lemma matched_rel w v : hvrel w (matched v) (matched v). Proof. destruct v; constructor. Qed.
  Lemma nil_rel w : erel w [] []. Proof. constructor. Qed.
  Lemma nils_rel w : hvrels w [] []. Proof. constructor. Qed.
  Hint Resolve matched_rel nil_rel nils_rel : conc.
  Lemma sim_engine n :
    (forall w rule e x y s, erel w x y -> sim presrel w (hparse_expr hra grammar n rule e x s) (hparse_expr hra grammar n rule e y s)) /\
    (forall w rule e l m s, hvrels w l m -> sim presrel w (hstar_loop hra grammar n rule e l s) (hstar_loop hra grammar n rule e m s)).
  Proof.
    induction n as [|n [IH IHs]]; [split; intros; apply sim_ret; exact I|]. split.
    - intros w rule e x y s E. destruct e as [a e'|es|l e'|es|e'|e'|e'|e'|name|v want|v cs rs inv|].
      + cbn [hparse_expr]. cbn zeta. stp IH. destruct ok0; [|fin].
        eapply sim_bind; [apply sim_catch, Hact; exact Re|]. intros w2 o o' L2 Ro. destruct o, o'; cbn in Ro; try contradiction; subst; fin.
      + cbn [hparse_expr]. apply sim_choice; [|exact E]. intros. apply IH. assumption.
      + cbn [hparse_expr]. stp IH. destruct ok0; [|fin]. apply sim_ret. cbn. repeat split; auto. apply (Forall2_cons (l, v) (l, v0)); [cbn; auto|]. exact (erel_le _ _ L _ _ E).
      + cbn [hparse_expr]. apply sim_seq; [intros; apply IH; assumption|constructor|exact E].
      + cbn [hparse_expr]. stp IH. fin.
      + cbn [hparse_expr]. stp IH. fin.
      + rewrite !h_star_eq. stp IHs. fin.
      + rewrite !h_plus_eq. eapply sim_bind; [apply IHs; constructor|]. intros w' r r' L R. destruct r as [| |v ok e1 p], r' as [| |v' ok' e1' p']; cbn in R; try contradiction; [fin|destruct R as (-> & -> & ->); fin|].
        destruct R as (Rv & -> & Re & ->). inversion Rv as [| |l m F| | | | | | | | | |]; subst; try fin. destruct F; fin.
      + cbn [hparse_expr]. destruct (grammar name) as [body|]; [|fin]. stp IH. fin.
      + cbn [hparse_expr]. destruct (parse_lit rule v want s) as [[z ok] s']. fin.
      + cbn [hparse_expr]. destruct (parse_class rule v cs rs inv s) as [[z ok] s']. fin.
      + cbn [hparse_expr]. destruct (parse_any rule s) as [[z ok] s']. fin.
    - intros w rule e l m s F. rewrite !h_loop_eq. stp IH. destruct ok0.
      + apply IHs. apply Forall2_app; [eapply hvrels_le; eauto|constructor; [assumption|constructor]].
      + apply sim_ret. cbn. repeat split; auto with conc. constructor. eapply hvrels_le; eauto.
  Qed.
End Engine.

Lemma sim_cast w v v' err : hvrel w v v' -> sim fmine w (h_cast v err) (h_cast v' err).
Proof. intros R. destruct err; cbn [h_cast]; clash. inversion R; subst; clash. apply sim_ret. split; assumption. Qed.
Lemma sim_Parse gp spare filename data w : sim fmine w (h_Parse gp spare filename data) (h_Parse gp spare filename data).
Proof.
  unfold h_Parse. eapply sim_bind; [apply sim_engine; [intros; apply sim_action; assumption|constructor]|].
  intros w' r r' L R. destruct r as [|m x p|v ok e p], r' as [|m' x' p'|v' ok' e' p']; cbn in R; try contradiction; clash.
  - destruct R as (-> & -> & ->). apply sim_cast. constructor.
  - destruct R as (Rv & -> & _ & ->). destruct ok'; [apply sim_cast; exact Rv|]. destruct (errs p'); apply sim_cast; constructor.
Qed.
