(** Parsing leaves memory well typed. *)
From Verif Require Import Text GoAst Ast Utf8 GoExpr Peg Grammar Parse Heap HeapParse SpecHeap SpecTyped HeapFacts HeapParseFacts TypedFacts.
From Coq Require Import NArith Arith Lia Bool.
Open Scope nat_scope.
Open Scope list_scope.
Notation kin := (kinds false).

Definition goodp {A} (Q : (nat -> option cell) -> A -> Prop) (m : M A) (h : heap) : Prop :=
  typed (view h) -> forall h' r, run m h = (h', r) -> typed (view h') /\ kin (view h) (view h') /\ match r with Ok a => Q (view h') a | _ => True end.
Lemma gp_good {A} Q (m : M A) h : good false Q m h -> goodp Q m h.
Proof. intros G T h' r E. destruct (G T _ _ E) as (T' & K & R). split; [exact T'|]. split; [exact K|]. destruct r; auto. Qed.
Lemma gp_bind {A B} (m : M A) (k : A -> M B) P Q h : goodp P m h -> (forall a h1, kin (view h) (view h1) -> P (view h1) a -> goodp Q (k a) h1) -> goodp Q (mbind m k) h.
Proof.
  intros G1 G2 T h' r E. rewrite run_bind in E. destruct (run m h) as [h1 r1] eqn:E1. destruct (G1 T _ _ E1) as (T1 & K1 & R1). destruct r1 as [a|e|x]; [|injection E as <- <-; auto..].
  destruct (G2 a h1 K1 R1 T1 _ _ E) as (T2 & K2 & R2). split; [exact T2|]. split; [exact (kinds_trans _ _ _ _ K1 K2)|exact R2].
Qed.
Lemma gp_ret {A} (a : A) (Q : (nat -> option cell) -> A -> Prop) h : Q (view h) a -> goodp Q (ret a) h.
Proof. intros H T h' r [= <- <-]. auto using kinds_refl. Qed.
Lemma gp_panics {A} m (Q : (nat -> option cell) -> A -> Prop) h : goodp Q (panics m) h.
Proof. intros T h' r [= <- <-]. auto using kinds_refl. Qed.
Lemma gp_fails {A} m (Q : (nat -> option cell) -> A -> Prop) h : goodp Q (fails m) h.
Proof. intros T h' r [= <- <-]. auto using kinds_refl. Qed.
Lemma gp_alloc c h : typed_cell (view h) c -> goodp (fun g a => g a = Some c) (alloc c) h.
Proof. intros C. apply gp_good, good_alloc; [discriminate|exact C]. Qed.
Lemma gp_catch {A} (m : M A) (Q : (nat -> option cell) -> A -> Prop) h : goodp Q m h -> goodp (fun g r => match r with Ok a => Q g a | _ => True end) (catch m) h.
Proof. intros G T h' r E. rewrite catch_run in E. destruct (run m h) as [h1 r1] eqn:E1. cbn [fst snd] in E. injection E as <- <-. exact (G T _ _ E1). Qed.

Fixpoint hv_ok (g : nat -> option cell) (v : hval) : Prop :=
  match v with
  | HVNil | HVBytes _ | HVOpcode _ | HVAlt _ | HVType _ | HVString _ => True
  | HVSlice l => (fix all l := match l with [] => True | x :: r => hv_ok g x /\ all r end) l
  | HVFile p => exists sl, g p = Some (CFile sl)
  | HVRule p => exists r, g p = Some (CRule r)
  | HVValue w => value_word g w
  | HVParts a => exists ps, g a = Some (CParts ps)
  | HVAuxInt p | HVAux p => exists e, g p = Some (CExpr e)
  end.
Lemma ok_slice g l : hv_ok g (HVSlice l) <-> Forall (hv_ok g) l.
Proof. induction l as [|x l IH]; [split; [constructor|reflexivity]|]. rewrite Forall_cons_iff, <- IH. reflexivity. Qed.
Lemma ok_mono g g' : kin g g' -> forall v, hv_ok g v -> hv_ok g' v.
Proof.
  intros K. apply (hval_ind' (fun v => hv_ok g v -> hv_ok g' v)).
  - intros l F. rewrite !ok_slice. rewrite !Forall_forall in *. auto.
  - intros w N H. destruct w; cbn in *; auto; try (destruct H as [x E]; destruct (proj1 K _ _ E) as ([] & E' & S); try contradiction; eauto; fail).
    + destruct (N l eq_refl). + eapply value_mono; eauto.
Qed.
Definition env_typed g (en : henv) : Prop := Forall (fun p => hv_ok g (snd p)) en.
Lemma oks_mono g g' l : kin g g' -> Forall (hv_ok g) l -> Forall (hv_ok g') l.
Proof. intros K. apply Forall_impl, ok_mono, K. Qed.
Lemma env_typed_mono g g' en : kin g g' -> env_typed g en -> env_typed g' en.
Proof. intros K. apply Forall_impl. intros p. apply ok_mono, K. Qed.
Lemma env_get_ok g en l : env_typed g en -> hv_ok g (henv_get en l).
Proof. intros E. induction E as [|[k v] en H E IH]; cbn; [exact I|]. destruct (text_eqb k l); [exact H|exact IH]. Qed.

Section Actions.
  Variable gp : text -> res gexpr.
  Variable spare : nat -> nat -> nat.
  Notation ok_val := (fun g v => hv_ok g v).
  Lemma gp_assert s h : goodp ok_val (hassert s) h. Proof. apply gp_panics. Qed.
  Lemma gp_elem v i k h : hv_ok (view h) v -> (forall x, hv_ok (view h) x -> goodp ok_val (k x) h) -> goodp ok_val (helem v i k) h.
  Proof.
    intros V K. destruct v; cbn [helem]; try apply gp_assert. apply ok_slice in V. destruct (nth_error l i) as [x|] eqn:E; [|apply gp_panics]. apply K. rewrite Forall_forall in V. apply V. eapply nth_error_In; eauto.
  Qed.
  Lemma gp_append b h sl ws : slice_of (view h) (sort_word b (view h)) sl -> Forall (sort_word b (view h)) ws -> goodp (fun g s => slice_of g (sort_word b g) s) (append spare sl ws) h.
  Proof. intros S F. apply gp_good. eapply good_weak; [apply (good_append false spare b); assumption|]. intros g a [X _]. exact X. Qed.
  Lemma gp_file : forall is rules h, Forall (hv_ok (view h)) is -> slice_of (view h) (rule_word (view h)) rules -> goodp ok_val (hon_file spare is rules) h.
  Proof.
    induction is as [|i is IH]; intros rules h F S; cbn [hon_file]; [eapply gp_bind; [apply gp_alloc; exact S|]; intros a h1 K E; apply gp_ret; eexists; exact E|].
    apply Forall_cons_iff in F. destruct F as [V F]. apply gp_elem; [exact V|]. intros x Vx. destruct x; try apply gp_assert. destruct Vx as [r E].
    eapply gp_bind; [apply (gp_append true); [exact S|constructor; [intros a [= <-]; eauto|constructor]]|]. intros sl h1 K S1. apply IH; [eapply oks_mono; eauto|exact S1].
  Qed.
  Lemma gp_rule m cond block r h : hv_ok (view h) m -> hv_ok (view h) cond -> hv_ok (view h) r -> goodp ok_val (hon_rule m cond block r) h.
  Proof.
    intros Vm Vc Vr. unfold hon_rule. destruct m as [| | | | |vm| | | | | | |]; try apply gp_assert. destruct r as [| | | | |vr| | | | | | |]; try apply gp_assert. cbn zeta.
    assert (B : forall c, expr_ptr (view h) c -> goodp ok_val (match block with
      | HVNil => do a <- alloc (CRule {| h_match := vm; h_cond := c; h_block := []; h_result := vr |}); ret (HVRule a)
      | HVString b => do a <- alloc (CRule {| h_match := vm; h_cond := c; h_block := b; h_result := vr |}); ret (HVRule a)
      | _ => hassert "string" end) h).
    { intros c Ec. destruct block; try apply gp_assert; (eapply gp_bind; [apply gp_alloc; split; [exact Vm|split; [exact Ec|exact Vr]]|]; intros a h1 K E; apply gp_ret; eexists; exact E). }
    assert (Bn : expr_ptr (view h) None) by (intros a; discriminate).
    destruct cond; try (exact (B None Bn)); (apply gp_elem; [exact Vc|]; intros x Vx; destruct x as [| | | | |xw| | | | | | |]; try apply gp_assert; destruct xw; try apply gp_assert; apply B; exact Vx).
  Qed.
  Lemma gp_alt : forall is acc h, Forall (hv_ok (view h)) is -> goodp ok_val (hon_alt is acc) h.
  Proof.
    induction is as [|i is IH]; intros acc h F; cbn [hon_alt]; [apply gp_ret; exact I|]. apply Forall_cons_iff in F. destruct F as [V F]. apply gp_elem; [exact V|]. intros x Vx. destruct x; try apply gp_assert. apply IH. exact F.
  Qed.
  Lemma gp_op : forall is acc h, Forall (hv_ok (view h)) is -> goodp ok_val (hon_op is acc) h.
  Proof.
    assert (E : forall acc h, goodp ok_val (hon_op [] acc) h).
    { intros acc h. cbn [hon_op]. assert (A : goodp ok_val (do a <- alloc (CParts acc); ret (HVParts a)) h) by (eapply gp_bind; [apply gp_alloc; exact I|]; intros a h1 K X; apply gp_ret; eexists; exact X).
      destruct acc as [|[c|c|] [|y acc]]; try exact A. apply gp_ret. exact I. }
    induction is as [|i is IH]; intros acc h F; [apply E|]. apply Forall_cons_iff in F. destruct F as [_ F]. cbn [hon_op]. destruct i; try apply gp_assert; apply IH; exact F.
  Qed.
  Lemma gp_operands (k : hsexpr -> M hval) : (forall s h, typed_cell (view h) (CSExpr s) -> goodp ok_val (k s) h) ->
    forall is s h, Forall (hv_ok (view h)) is -> typed_cell (view h) (CSExpr s) -> goodp ok_val (hon_operands spare is s k) h.
  Proof.
    intros Hk. induction is as [|i is IH]; intros s h F T; cbn [hon_operands]; [apply Hk; exact T|]. apply Forall_cons_iff in F. destruct F as [V F]. apply gp_elem; [exact V|]. intros x Vx. destruct T as (O & Xi & Xa & Sl).
    destruct x; try apply gp_fails.
    - eapply gp_bind; [apply (gp_append false); [exact Sl|constructor; [exact Vx|constructor]]|]. intros sl h1 K S1. apply IH; [eapply oks_mono; eauto|]. cbn.
      split; [|split; [|split; [|exact S1]]].
      + intros a E. destruct (O a E) as [ps G]. destruct (proj1 K _ _ G) as ([] & G' & Sk); try contradiction. eauto.
      + eapply expr_ptr_alike; [eapply kinds_alike; exact K|exact Xi]. + eapply expr_ptr_alike; [eapply kinds_alike; exact K|exact Xa].
    - apply IH; [exact F|]. cbn. auto.
    - apply IH; [exact F|]. cbn. split; [exact O|]. split; [intros a [= <-]; exact Vx|auto].
    - apply IH; [exact F|]. cbn. split; [exact O|]. split; [exact Xi|]. split; [intros a [= <-]; exact Vx|exact Sl].
  Qed.
  Lemma gp_sexpr binding op operands el tr h : hv_ok (view h) binding -> hv_ok (view h) op -> hv_ok (view h) operands -> goodp ok_val (hon_sexpr spare binding op operands el tr) h.
  Proof.
    intros Vb Vo Va. unfold hon_sexpr. cbn zeta.
    set (rest := fun (o : hop) (b : text) => match operands with
      | HVSlice is =>
            hon_operands spare is {| h_binding := b; h_op := o; h_type := []; h_auxint := None; h_aux := None; h_args := nil_slice;
                               h_ellipsis := false; h_trailing := false |}
              (fun s => do a <- alloc (CSExpr {| h_binding := h_binding s; h_op := h_op s; h_type := h_type s; h_auxint := h_auxint s;
                                 h_aux := h_aux s; h_args := h_args s;
                                 h_ellipsis := match el with HVNil => false | _ => true end;
                                 h_trailing := match tr with HVNil => false | _ => true end |});
                        ret (HVValue (WSExpr (Some a))))
      | _ => hassert "[]interface {}" end).
    assert (R : forall o b, (forall a, o = HParts a -> exists ps, nth_error h a = Some (CParts ps)) -> goodp ok_val (rest o b) h).
    { intros o b Ho. unfold rest. destruct operands; try apply gp_assert. apply ok_slice in Va. apply gp_operands; [|exact Va|].
      - intros s h1 (O & Xi & Xa & Sl). eapply gp_bind; [apply gp_alloc; cbn; auto|]. intros a h2 K E. apply gp_ret. intros b' [= <-]. eexists; exact E.
      - cbn. split; [exact Ho|]. split; [intros a; discriminate|]. split; [intros a; discriminate|]. split; [apply le_n|left; reflexivity]. }
    assert (G : forall o, (forall a, o = HParts a -> exists ps, nth_error h a = Some (CParts ps)) ->
      goodp ok_val (match binding with HVNil => rest o [] | _ => helem binding 0 (fun v => match v with HVValue (WVar x) => rest o x | _ => hassert "ast.Variable" end) end) h).
    { intros o Ho. destruct binding; try (apply R; exact Ho); (apply gp_elem; [exact Vb|]; intros x Vx; destruct x as [| | | | |xw| | | | | | |]; try apply gp_assert; destruct xw; try apply gp_assert; apply R; exact Ho). }
    destruct op; try apply gp_assert; [apply (G (HOpcode c)); intros; discriminate|apply (G (HParts a)); intros b [= <-]; exact Vo].
  Qed.
  Lemma gp_goexpr x k h : (forall g p, (exists e, g p = Some (CExpr e)) -> hv_ok g (k p)) -> goodp ok_val (hwith_goexpr gp x k) h.
  Proof.
    intros Hk. unfold hwith_goexpr. destruct (goexpr_parse gp x); [|apply gp_fails|apply gp_panics]. eapply gp_bind; [apply gp_alloc; exact I|]. intros b h1 K E. apply gp_ret. apply Hk. eexists; exact E.
  Qed.
  Lemma gp_action a t en h : env_typed (view h) en -> goodp ok_val (hrun_action gp spare a t en) h.
  Proof.
    intros E. pose proof (fun l => env_get_ok _ _ (str l) E) as G. unfold hrun_action. cbn zeta.
    destruct a; try (apply gp_ret; exact I); try (apply gp_goexpr; intros g p X; cbn; auto; intros b [= <-]; exact X).
    - specialize (G "rs"%string). destruct (henv_get en (str "rs")); try apply gp_assert. apply ok_slice in G. apply gp_file; [exact G|split; [apply le_n|left; reflexivity]].
    - apply gp_rule; apply G.
    - pose proof (G "rest"%string) as G'. destruct (henv_get en (str "first")); try apply gp_assert. destruct (henv_get en (str "rest")); try apply gp_assert. apply ok_slice in G'. apply gp_alt. exact G'.
    - specialize (G "parts"%string). destruct (henv_get en (str "parts")); try apply gp_assert. apply ok_slice in G. apply gp_op. exact G.
    - apply gp_sexpr; apply G.
  Qed.
End Actions.

Section Engine.
  Context {A : Type}.
  Variable ra : A -> text -> henv -> M hval.
  Variable grammar : text -> option (pexpr A).
  Hypothesis ra_ok : forall a t en h, env_typed (view h) en -> goodp (fun g v => hv_ok g v) (ra a t en) h.
  Definition pres_ok (g : nat -> option cell) (r : hpres) : Prop := match r with HPRes v _ en _ => hv_ok g v /\ env_typed g en | _ => True end.
  Lemma env_none g : env_typed g []. Proof. constructor. Qed.
  Lemma matched_ok g v : hv_ok g (matched v). Proof. destruct v; exact I. Qed.
  Lemma gp_seq (parse : pexpr A -> henv -> pstate -> M hpres) start : (forall e en s h, env_typed (view h) en -> goodp pres_ok (parse e en s) h) ->
    forall es vals en s h, Forall (hv_ok (view h)) vals -> env_typed (view h) en -> goodp pres_ok (hseq_loop parse start es vals en s) h.
  Proof.
    intros P. induction es as [|e es IH]; intros vals en s h F E; cbn [hseq_loop]; [apply gp_ret; split; [apply ok_slice; exact F|exact E]|].
    eapply gp_bind; [apply P; exact E|]. intros r h1 K R. destruct r as [| |v [|] en' s']; try (apply gp_ret; exact R).
    - destruct R as [V E']. apply IH; [apply Forall_app; split; [eapply oks_mono; eauto|constructor; [exact V|constructor]]|exact E'].
    - apply gp_ret. split; [exact I|apply R].
  Qed.
  Lemma gp_choice (parse : pexpr A -> henv -> pstate -> M hpres) : (forall e en s h, env_typed (view h) en -> goodp pres_ok (parse e en s) h) ->
    forall es en s h, env_typed (view h) en -> goodp pres_ok (hchoice_loop parse es en s) h.
  Proof.
    intros P. induction es as [|e es IH]; intros en s h E; cbn [hchoice_loop]; [apply gp_ret; split; [exact I|exact E]|].
    eapply gp_bind; [apply P; apply env_none|]. intros r h1 K R. destruct r as [| |v [|] en' s']; try (apply gp_ret; exact R).
    - apply gp_ret. split; [apply R|eapply env_typed_mono; eauto].
    - apply IH. eapply env_typed_mono; eauto.
  Qed.
  Lemma gp_parse n : (forall rule e en s h, env_typed (view h) en -> goodp pres_ok (hparse_expr ra grammar n rule e en s) h) /\
    (forall rule e vals s h, Forall (hv_ok (view h)) vals -> goodp pres_ok (hstar_loop ra grammar n rule e vals s) h).
  Proof.
    induction n as [|n [IH IHs]]; [split; intros; apply gp_ret; exact I|]. split.
    - intros rule e en s h E. destruct e as [a e|es|l e|es|e|e|e|e|name|v want|v cs rs inv|].
      + cbn [hparse_expr]. eapply gp_bind; [apply IH; exact E|]. intros r h1 K R. destruct r as [| |v [|] en' s']; try (apply gp_ret; exact R).
        eapply gp_bind; [apply gp_catch, ra_ok, R|]. intros o h2 K2 O. pose proof (env_typed_mono _ _ _ K2 (proj2 R)) as E2.
        destruct o; apply gp_ret; [split; [exact O|exact E2]|split; [exact I|exact E2]|exact I].
      + cbn [hparse_expr]. apply gp_choice; [|exact E]. intros e' en' s' h' E'. apply IH. exact E'.
      + cbn [hparse_expr]. eapply gp_bind; [apply IH; apply env_none|]. intros r h1 K R. pose proof (env_typed_mono _ _ _ K E) as E1. destruct r as [| |v [|] en' s']; try (apply gp_ret; exact R); apply gp_ret.
        * split; [apply R|]. constructor; [apply R|exact E1]. * split; [apply R|exact E1].
      + cbn [hparse_expr]. apply gp_seq; [|constructor|exact E]. intros e' en' s' h' E'. apply IH. exact E'.
      + cbn [hparse_expr]. eapply gp_bind; [apply IH; apply env_none|]. intros r h1 K R. pose proof (env_typed_mono _ _ _ K E) as E1. destruct r as [| |v b en' s']; try (apply gp_ret; exact R); apply gp_ret. split; [exact I|exact E1].
      + cbn [hparse_expr]. eapply gp_bind; [apply IH; apply env_none|]. intros r h1 K R. pose proof (env_typed_mono _ _ _ K E) as E1. destruct r as [| |v b en' s']; try (apply gp_ret; exact R); apply gp_ret. split; [apply R|exact E1].
      + rewrite h_star_eq. eapply gp_bind; [apply IHs; constructor|]. intros r h1 K R. pose proof (env_typed_mono _ _ _ K E) as E1. destruct r as [| |v b en' s']; try (apply gp_ret; exact R); apply gp_ret. split; [apply R|exact E1].
      + rewrite h_plus_eq. eapply gp_bind; [apply IHs; constructor|]. intros r h1 K R. pose proof (env_typed_mono _ _ _ K E) as E1.
        destruct r as [| |v b en' s']; try (apply gp_ret; exact R). destruct v as [| |[|x l]| | | | | | | | | |]; apply gp_ret; (split; [first [exact I|apply R]|exact E1]).
      + cbn [hparse_expr]. destruct (grammar name) as [body|]; [|apply gp_ret; split; [exact I|exact E]]. eapply gp_bind; [apply IH; apply env_none|]. intros r h1 K R. pose proof (env_typed_mono _ _ _ K E) as E1.
        destruct r as [| |v b en' s']; try (apply gp_ret; exact R); apply gp_ret. split; [apply R|exact E1].
      + cbn [hparse_expr]. destruct (parse_lit rule v want s) as [[x b] s']. apply gp_ret. split; [apply matched_ok|exact E].
      + cbn [hparse_expr]. destruct (parse_class rule v cs rs inv s) as [[x b] s']. apply gp_ret. split; [apply matched_ok|exact E].
      + cbn [hparse_expr]. destruct (parse_any rule s) as [[x b] s']. apply gp_ret. split; [apply matched_ok|exact E].
    - intros rule e vals s h F. rewrite h_loop_eq. eapply gp_bind; [apply IH; apply env_none|]. intros r h1 K R. destruct r as [| |v [|] en' s']; try (apply gp_ret; exact R).
      + apply IHs. apply Forall_app. split; [eapply oks_mono; eauto|constructor; [apply R|constructor]].
      + apply gp_ret. split; [apply ok_slice; eapply oks_mono; eauto|apply env_none].
  Qed.
End Engine.

Lemma gp_cast v err h : hv_ok (view h) v -> goodp (fun g p => exists sl, g p = Some (CFile sl)) (h_cast v err) h.
Proof. intros V. destruct err; cbn [h_cast]; [apply gp_fails|]. destruct v; try apply gp_panics. apply gp_ret. exact V. Qed.
Lemma gp_Parse gp spare filename data h : goodp (fun g p => exists sl, g p = Some (CFile sl)) (h_Parse gp spare filename data) h.
Proof.
  unfold h_Parse. eapply gp_bind; [apply gp_parse; [intros a t en h'; apply gp_action|apply env_none]|]. intros r h1 K R.
  destruct r as [| |v [|] en s]; [apply gp_panics|apply gp_cast; exact I|apply gp_cast; apply R|]. destruct (errs s); apply gp_cast; exact I.
Qed.
