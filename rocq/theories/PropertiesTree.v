(** Properties of ast.Walk, ast.Inspect, ast.Contains and package rules
    (C31-C35).  Vocabulary: SpecTree.v. *)
From Verif Require Import Text GoAst Ast Walk SpecTree TreeFacts.

(** A small tree used as a witness below:  x:(Add8 (Neg8 <t> y) z) && c => _  *)
Definition ex_neg : sexpr :=
  mkSExpr [] (Opcode (str "Neg8")) (str "t") None None [Var (str "y")] false false.
Definition ex_add : sexpr :=
  mkSExpr (str "x") (Opcode (str "Add8")) [] None None [SExp ex_neg; Var (str "z")] false false.
Definition ex_rule : rule :=
  mkRule (SExp ex_add) (Some (GIdent NoPos (str "c"))) [] (Var Placeholder).

Lemma ex_nil_free : nil_free (NRule ex_rule).
Proof. apply nil_free_test. reflexivity. Qed.

(** C31: the Visit calls of a Walk, in order and with their receivers, are those
    of a depth-first traversal; [logging] only records them. *)
Theorem C31_walk_calls :
  forall (V S : Type) (visit : V -> node -> S -> option V * S) v n s calls s',
    walk (logging visit) v n (s, []) = WDone (s', calls) <-> Walks visit v n s calls s'.
Proof. exact @walk_logged_iff. Qed.
Print Assumptions C31_walk_calls.

Theorem C31_walk_result :
  forall (V S : Type) (visit : V -> node -> S -> option V * S) v n s s',
    walk visit v n s = WDone s' <-> exists calls, Walks visit v n s calls s'.
Proof. exact @walk_iff. Qed.
Print Assumptions C31_walk_result.

(** A visitor that always returns itself sees the whole tree once, in preorder. *)
Theorem C31_walk_everything :
  forall (V S : Type) (visit : V -> node -> S -> option V * S) (v : V),
    (forall n s, exists s', visit v n s = (Some v, s')) ->
    forall n l, preorder n l -> ~ In NNil l ->
    forall s, exists s', walk (logging visit) v n (s, []) = WDone (s', map (pair v) l).
Proof.
  intros V S visit v H n l Hp Hn s.
  destruct (proj1 (walks_all_preorder visit v H) n l Hp Hn s) as [s' Hw].
  exists s'. now apply walk_logged_iff.
Qed.
Print Assumptions C31_walk_everything.

Theorem C31_walk_panics_only_on_nil :
  forall (V S : Type) (visit : V -> node -> S -> option V * S) n v s m s',
    walk visit v n s = WPanic m s' -> m = str "assertion failure: unexpected type <nil>" /\ occurs NNil n.
Proof. exact @walk_panics_on_nil. Qed.
Print Assumptions C31_walk_panics_only_on_nil.

Example C31_example :
  walk (logging (fun (d : nat) (n : node) (_ : unit) =>
          ((match n with NSExpr s => if s_type s then Some (Datatypes.S d) else None | _ => Some (Datatypes.S d) end), tt)))
    0 (NRule ex_rule) (tt, []) =
  WDone (tt, [(0, NRule ex_rule); (1, NSExpr ex_add); (2, NOpcode (str "Add8"));
              (2, NSExpr ex_neg); (2, NVar (str "z")); (1, NVar Placeholder)]).
Proof. reflexivity. Qed.

(** C32 *)
Theorem C32_inspect_visits :
  forall (f : node -> bool) n l,
    inspect (fun n (log : list node) => (f n, log ++ [n])) n [] = WDone l <-> visible f n l.
Proof. exact inspect_visible. Qed.
Print Assumptions C32_inspect_visits.

Theorem C32_inspect_panics :
  forall (f : node -> bool) n s m s',
    inspect (fun n (log : list node) => (f n, log ++ [n])) n s = WPanic m s' ->
    f NNil = true /\ occurs NNil n.
Proof. exact inspect_panic. Qed.
Print Assumptions C32_inspect_panics.

(** The callback may keep a state of its own: the nodes it sees and its answers. *)
Theorem C32_any_callback :
  forall (S : Type) (f : node -> S -> bool * S) n s s',
    inspect f n s = WDone s' <-> exists l, shown n l /\ answers f l s s'.
Proof. exact @inspect_stateful. Qed.
Print Assumptions C32_any_callback.
Theorem C32_any_callback_calls :
  forall (S : Type) (f : node -> S -> bool * S) n s s' l,
    inspect (fun n st => let '(b, s') := f n (fst st) in (b, (s', snd st ++ [(n, b)]))) n (s, []) = WDone (s', l) <-> shown n l /\ answers f l s s'.
Proof. exact @inspect_logged. Qed.
Print Assumptions C32_any_callback_calls.
(** A callback that says yes three times and then no. *)
Example C32_stateful_example :
  shown (NRule ex_rule) [(NRule ex_rule, true); (NSExpr ex_add, true); (NOpcode (str "Add8"), true); (NSExpr ex_neg, false); (NVar (str "z"), false); (NVar Placeholder, false)] /\
  answers (fun n k => (Nat.ltb k 3, S k)) [(NRule ex_rule, true); (NSExpr ex_add, true); (NOpcode (str "Add8"), true); (NSExpr ex_neg, false); (NVar (str "z"), false); (NVar Placeholder, false)] 0 6.
Proof. apply C32_any_callback_calls. reflexivity. Qed.

Example C32_example :
  visible (fun n => match n with NSExpr s => negb (is_nonempty (s_type s)) | _ => true end) (NRule ex_rule)
    [NRule ex_rule; NSExpr ex_add; NOpcode (str "Add8"); NSExpr ex_neg; NVar (str "z"); NVar Placeholder].
Proof. apply inspect_visible. reflexivity. Qed.

(** C33: which answer, and which predicate calls. *)
Theorem C33_contains_exists :
  forall pred n b, contains pred n = Ok b -> (b = true <-> exists x, occurs x n /\ pred x = true).
Proof. exact contains_ok. Qed.
Print Assumptions C33_contains_exists.

Theorem C33_contains_answers :
  forall pred n, nil_free n -> exists b, contains pred n = Ok b.
Proof. exact contains_total. Qed.
Print Assumptions C33_contains_answers.

Theorem C33_contains_calls :
  forall pred n l, preorder n l -> ~ In NNil l ->
    contains_eff (log_pred pred) n [] = Ok (existsb pred l, upto pred l).
Proof.
  exact (fun pred n l H Hn => eq_trans (contains_eff_search _ n l [] H) (search_nil_free pred l [] Hn)).
Qed.
Print Assumptions C33_contains_calls.

Theorem C33_any_predicate :
  forall (S : Type) (pred : node -> S -> bool * S) n l s, preorder n l -> ~ In NNil l ->
    contains_eff pred n s = Ok (first_hit pred l s).
Proof. exact (fun S pred n l s H Hn => eq_trans (contains_eff_search pred n l s H) (search_first_hit pred l s Hn)). Qed.
Print Assumptions C33_any_predicate.

(** A predicate that says yes the third time it is asked. *)
Example C33_any_example :
  nil_free (NRule ex_rule) /\
  contains_eff (fun _ k => (Nat.eqb k 2, S k)) (NRule ex_rule) 0 = Ok (true, 3).
Proof. split; [exact ex_nil_free | reflexivity]. Qed.

Theorem C33_preorder_exists : forall n, exists l, preorder n l /\ forall x, In x l <-> occurs x n.
Proof.
  exact (fun n => match preorder_exists n with
                  | ex_intro _ l H => ex_intro _ l (conj H (proj1 preorder_occurs n l H))
                  end).
Qed.
Print Assumptions C33_preorder_exists.

Example C33_example :
  nil_free (NRule ex_rule) /\
  contains_eff (log_pred (on_sexpr (fun s => is_nonempty (s_type s)))) (NRule ex_rule) [] =
    Ok (true, [NRule ex_rule; NSExpr ex_add; NOpcode (str "Add8"); NSExpr ex_neg]).
Proof. split; [exact ex_nil_free | reflexivity]. Qed.

(** C34 *)
Definition has_feature_spec (has : rule -> res bool) (feature : sexpr -> Prop) : Prop :=
  forall r,
    (forall b, has r = Ok b -> (b = true <-> exists s, occurs (NSExpr s) (NRule r) /\ feature s)) /\
    (nil_free (NRule r) -> exists b, has r = Ok b).

Lemma nonempty_iff (t : text) : is_nonempty t = true <-> t <> [].
Proof. destruct t; cbn; split; congruence. Qed.
Lemma some_iff {A} (o : option A) : is_some o = true <-> exists x, o = Some x.
Proof. destruct o; cbn; split; try congruence; eauto. intros [x H]; congruence. Qed.

Lemma feature_by p (Q : sexpr -> Prop) (has : rule -> res bool) :
  (forall r, has r = contains (on_sexpr p) (NRule r)) -> (forall s, p s = true <-> Q s) ->
  has_feature_spec has Q.
Proof.
  intros Hh Hp r. rewrite Hh. split.
  - intros b Hb. rewrite (has_feature p r b Hb).
    split; intros [s [Ho Hs]]; exists s; split; auto; apply Hp; exact Hs.
  - intros Hn. apply contains_total. exact Hn.
Qed.

Theorem C34_HasBinding : has_feature_spec HasBinding (fun s => s_binding s <> []).
Proof. exact (feature_by _ _ _ (fun r => eq_refl) (fun s => nonempty_iff _)). Qed.
Print Assumptions C34_HasBinding.
Theorem C34_HasType : has_feature_spec HasType (fun s => s_type s <> []).
Proof. exact (feature_by _ _ _ (fun r => eq_refl) (fun s => nonempty_iff _)). Qed.
Print Assumptions C34_HasType.
Theorem C34_HasAux : has_feature_spec HasAux (fun s => exists e, s_aux s = Some e).
Proof. exact (feature_by _ _ _ (fun r => eq_refl) (fun s => some_iff _)). Qed.
Print Assumptions C34_HasAux.
Theorem C34_HasAuxInt : has_feature_spec HasAuxInt (fun s => exists e, s_auxint s = Some e).
Proof. exact (feature_by _ _ _ (fun r => eq_refl) (fun s => some_iff _)). Qed.
Print Assumptions C34_HasAuxInt.
Theorem C34_HasEllipsis : has_feature_spec HasEllipsis (fun s => s_ellipsis s = true).
Proof. exact (feature_by _ _ _ (fun r => eq_refl) (fun s => iff_refl _)). Qed.
Print Assumptions C34_HasEllipsis.
Theorem C34_HasTrailing : has_feature_spec HasTrailing (fun s => s_trailing s = true).
Proof. exact (feature_by _ _ _ (fun r => eq_refl) (fun s => iff_refl _)). Qed.
Print Assumptions C34_HasTrailing.

Example C34_example :
  nil_free (NRule ex_rule) /\ HasBinding ex_rule = Ok true /\ HasType ex_rule = Ok true /\
  HasAux ex_rule = Ok false /\ HasAuxInt ex_rule = Ok false.
Proof. split; [exact ex_nil_free | repeat split]. Qed.

(** C35 is false of the code: the documentation of Walk promises a traversal of
    the syntax tree, but a rule's condition is never visited, whatever the
    visitor does; nor are aux fields. *)
Lemma walks_occurs {V S} (visit : V -> node -> S -> option V * S) :
  (forall v n s calls s', Walks visit v n s calls s' -> forall c, In c calls -> occurs (snd c) n) /\
  (forall v ns s calls s', WalksAll visit v ns s calls s' ->
     forall c, In c calls -> exists n, In n ns /\ occurs (snd c) n).
Proof.
  apply (Walks_mutind V S visit
    (fun v n s calls s' _ => forall c, In c calls -> occurs (snd c) n)
    (fun v ns s calls s' _ => forall c, In c calls -> exists n, In n ns /\ occurs (snd c) n)).
  - intros v n s s' _ c [<-|[]]. constructor.
  - intros v v' n s s' calls s'' _ _ _ IH c [<-|Hc]; [constructor|].
    destruct (IH c Hc) as [m [Hm Ho]]. econstructor; eauto.
  - intros v s c [].
  - intros v n ns s c1 s' c2 s'' _ IH1 _ IH2 c Hc. apply in_app_iff in Hc. destruct Hc as [Hc|Hc].
    + exists n. split; [left; reflexivity|auto].
    + destruct (IH2 c Hc) as [m [Hm Ho]]. exists m. split; [right; exact Hm|exact Ho].
Qed.

Definition all_expr_fields : rule :=
  mkRule (SExp (mkSExpr [] (Opcode (str "Foo")) [] (Some (GIdent NoPos (str "a")))
                        (Some (GIdent NoPos (str "b"))) [] false false))
         (Some (GIdent NoPos (str "c"))) [] (Var (str "x")).

Lemma never_visited : forall (V S : Type) (visit : V -> node -> S -> option V * S) v s calls s' e,
  Walks visit v (NRule all_expr_fields) s calls s' -> ~ In (NExpr e) (map snd calls).
Proof.
  intros V S visit v s calls s' e H Hin. apply in_map_iff in Hin. destruct Hin as [c [Hc Hin]].
  pose proof (proj1 (walks_occurs visit) _ _ _ _ _ H c Hin) as Ho. rewrite Hc in Ho.
  revert Ho. apply (not_occurs_test (fun n => match n with NExpr _ => true | _ => false end)); reflexivity.
Qed.

Theorem C35_walk_reaches_expressions_refuted :
  exists r c s a b,
    r_cond r = Some c /\ r_match r = SExp s /\ s_auxint s = Some a /\ s_aux s = Some b /\
    forall (V S : Type) (visit : V -> node -> S -> option V * S) v st calls st' e,
      Walks visit v (NRule r) st calls st' -> ~ In (NExpr e) (map snd calls).
Proof.
  exact (ex_intro _ all_expr_fields (ex_intro _ _ (ex_intro _ _ (ex_intro _ _ (ex_intro _ _
    (conj eq_refl (conj eq_refl (conj eq_refl (conj eq_refl never_visited))))))))).
Qed.
Print Assumptions C35_walk_reaches_expressions_refuted.
