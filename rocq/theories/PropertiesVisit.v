(** Property C76: visitors that change the tree. *)
From Verif Require Import Text GoAst Ast Walk Expand Parse GoParser Printer SpecTree TreeFacts Heap HeapPrint HeapParse HeapVisit SpecHeap SpecFresh SpecVisit
  HeapFacts HeapPrintFacts HeapParseFacts VisitFacts VisitFresh TourFacts PropertiesHeap PropertiesHeapPrint.
From Coq Require Import Arith Lia Bool.

(** *** C76: Visitors that change the tree

    [run m h] is the program [m] run in memory [h]: the memory afterwards, and the outcome. *)

(** A visitor that only reads: with pointers, Walk does what C31 says it does on the tree
    that memory holds, whatever is shared, and leaves memory alone. *)
Theorem C76_read_only_visitors :
  forall (V S : Type) (hv : V -> hnode -> S -> M (option V * S)) (tv : V -> node -> S -> option V * S) (h : heap) n t fuel v s,
    (forall v n t s, stands (nth_error h) n t -> run (hv v n s) h = (h, Ok (tv v t s))) ->
    stands (nth_error h) n t -> node_height t <= fuel ->
    run (h_Walk hv fuel v n s) h = (h, match walk tv v t s with WDone s' => Ok s' | WPanic m _ => Panic m end).
Proof. intros V S hv tv h n t fuel v s R N Hf. exact (ro_walk hv tv h R n t fuel v s N Hf). Qed.
Print Assumptions C76_read_only_visitors.

(** So does Contains, with a predicate that reads memory. *)
Theorem C76_contains :
  forall (hp : hnode -> M bool) (tp : node -> bool) (h : heap) n t fuel,
    (forall n t, stands (nth_error h) n t -> run (hp n) h = (h, Ok (tp t))) ->
    stands (nth_error h) n t -> node_height t <= fuel ->
    run (h_Contains hp fuel n) h = (h, contains tp t).
Proof.
  intros hp tp h n t fuel R N Hf. unfold h_Contains, h_Inspect, contains, contains_eff, inspect.
  set (f := fun (n : node) (st : bool * unit) => let '(found, s) := st in let '(found', s') := if found then (true, s) else (tp n, tt) in (negb found', (found', s'))).
  set (tv := fun (_ : unit) (n : node) (b : bool) => let '(o, (b', _)) := inspector f tt n (b, tt) in (o, b')).
  rewrite (ro_walk _ tv h) with (t := t); [| |exact N|exact Hf].
  - (* the same traversal, without the unit in the state *)
    assert (Out : forall (A : Type) (w1 : A -> bool -> wout bool) (w2 : A -> bool * unit -> wout (bool * unit)),
              (forall a b, w2 a (b, tt) = match w1 a b with WDone b' => WDone (b', tt) | WPanic m b' => WPanic m (b', tt) end) ->
              forall xs b, wfor w2 xs (b, tt) = match wfor w1 xs b with WDone b' => WDone (b', tt) | WPanic m b' => WPanic m (b', tt) end).
    { intros A w1 w2 H. induction xs as [|x xs IH]; intros b; [reflexivity|]. cbn [wfor]. rewrite H. destruct (w1 x b); cbn [wbind]; [apply IH|reflexivity]. }
    assert (Vis : forall n b, inspector f tt n (b, tt) = let '(o, b') := tv tt n b in (o, (b', tt))).
    { intros n0 b. unfold tv. destruct (inspector f tt n0 (b, tt)) as [o [b' []]]. reflexivity. }
    assert (Pt : forall p b, walk_part (inspector f) tt p (b, tt) = match walk_part tv tt p b with WDone b' => WDone (b', tt) | WPanic m b' => WPanic m (b', tt) end).
    { intros p b. unfold walk_part. rewrite Vis. destruct (tv tt (node_of_part p) b) as [[[]|] b']; [destruct p|]; reflexivity. }
    assert (Po : forall o b, walk_op (inspector f) tt o (b, tt) = match walk_op tv tt o b with WDone b' => WDone (b', tt) | WPanic m b' => WPanic m (b', tt) end).
    { intros o b. unfold walk_op. rewrite Vis. destruct (tv tt (node_of_op o) b) as [[[]|] b']; [destruct o|]; try reflexivity. apply Out. exact Pt. }
    assert (Pv : forall x b, walk_value (inspector f) tt x (b, tt) = match walk_value tv tt x b with WDone b' => WDone (b', tt) | WPanic m b' => WPanic m (b', tt) end).
    { induction x as [x IH|e|z|] using value_ind'; intros b; cbn [walk_value]; rewrite Vis; match goal with |- context [tv tt ?n b] => destruct (tv tt n b) as [[[]|] b'] end; try reflexivity.
      rewrite Po. destruct (walk_op tv tt (s_op x) b') as [b2|m b2]; cbn [wbind]; [|reflexivity].
      clear -IH. revert b2. induction (s_args x) as [|a l IHl]; intros b2; [reflexivity|]. inversion IH; subst. cbn [wfor]. rewrite H1.
      destruct (walk_value tv tt a b2); cbn [wbind]; [apply IHl; assumption|reflexivity]. }
    assert (Pr : forall r b, walk_rule (inspector f) tt r (b, tt) = match walk_rule tv tt r b with WDone b' => WDone (b', tt) | WPanic m b' => WPanic m (b', tt) end).
    { intros r b. unfold walk_rule. rewrite Vis. destruct (tv tt (NRule r) b) as [[[]|] b']; [|reflexivity]. rewrite Pv. destruct (walk_value tv tt (r_match r) b'); cbn [wbind]; [apply Pv|reflexivity]. }
    assert (W : walk (inspector f) tt t (false, tt) = match walk tv tt t false with WDone b' => WDone (b', tt) | WPanic m b' => WPanic m (b', tt) end).
    { destruct t; cbn [walk]; auto. rewrite Vis. destruct (tv tt _ false) as [[[]|] b']; [|reflexivity]. apply Out. exact Pr. }
    rewrite W. destruct (walk tv tt t false); reflexivity.
  - intros [] n0 t0 b S0. unfold h_inspector, tv, inspector, f. destruct b; [reflexivity|]. rewrite !run_bind, (R _ _ S0). destruct (tp t0); reflexivity.
Qed.
Print Assumptions C76_contains.

(** Any visitor, whatever it does to memory: the calls of Walk, with their receivers, are
    those of the tour of memory as it changes; it ends where the tour ends, if the stack is
    deep enough, and succeeds only if there is a tour. *)
Theorem C76_any_visitor_calls :
  forall (V S : Type) (visit : V -> hnode -> S -> M (option V * S)) v n s (h h' : heap) s' calls,
    Tour visit v n s h calls s' h' <->
    exists k, forall fuel, k <= fuel -> run (h_Walk (h_logging visit) fuel v n (s, [])) h = (h', Ok (s', calls)).
Proof.
  intros V S visit v n s h h' s' calls. split.
  - intros T. destruct (proj1 (tours_made visit) _ _ _ _ _ _ _ T) as [k K]. exists k. intros fuel Hf. exact (K fuel Hf []).
  - intros [k K]. pose proof (t_walk _ _ _ _ _ _ _ _ _ (K k (le_n _))) as (s1 & c1 & E & T). injection E as <- ->. exact T.
Qed.
Print Assumptions C76_any_visitor_calls.
Theorem C76_any_visitor :
  forall (V S : Type) (visit : V -> hnode -> S -> M (option V * S)) v n s (h h' : heap) s',
    (exists calls, Tour visit v n s h calls s' h') <-> (exists fuel, run (h_Walk visit fuel v n s) h = (h', Ok s')).
Proof.
  intros V S visit v n s h h' s'. split.
  - intros [calls T]. destruct (proj1 (C76_any_visitor_calls _ _ _ _ _ _ _ _ _ _) T) as [k K]. exists k. specialize (K k (le_n _)).
    change s with (fst (s, @nil (V * hnode))). rewrite f_walk, K. reflexivity.
  - intros [fuel E]. destruct (walk_tour visit _ _ _ _ _ _ _ E) as (calls & T & _). exists calls. exact T.
Qed.
Print Assumptions C76_any_visitor.
(** A deeper stack changes nothing. *)
Theorem C76_stack :
  forall (V S : Type) (visit : V -> hnode -> S -> M (option V * S)) v n s (h h' : heap) s' fuel,
    run (h_Walk visit fuel v n s) h = (h', Ok s') -> exists k, forall fuel2, k <= fuel2 -> run (h_Walk visit fuel2 v n s) h = (h', Ok s').
Proof.
  intros V S visit v n s h h' s' fuel E. destruct (walk_tour visit _ _ _ _ _ _ _ E) as (calls & T & _). destruct (proj1 (C76_any_visitor_calls _ _ _ _ _ _ _ _ _ _) T) as [k K].
  exists k. intros fuel2 Hf. change s with (fst (s, @nil (V * hnode))). rewrite f_walk, (K fuel2 Hf). reflexivity.
Qed.
Print Assumptions C76_stack.

(** Visit comes first: what is visited next are the children that the node has in memory
    when Visit returns, if Visit changes nothing from then on. *)
Theorem C76_children_after_visit :
  forall (V S : Type) (hv : V -> hnode -> S -> M (option V * S)) (tv : V -> node -> S -> option V * S) (h h1 : heap) p x fuel v v' s s1 calls s2,
    run (hv v (HWord (WSExpr (Some p))) s) h = (h1, Ok (Some v', s1)) ->
    value_at (nth_error h1) (WSExpr (Some p)) (SExp x) -> height (SExp x) <= fuel ->
    (forall v n t s, stands (nth_error h1) n t -> run (hv v n s) h1 = (h1, Ok (tv v t s))) ->
    WalksAll tv v' (children (NSExpr x)) s1 calls s2 ->
    run (h_Walk hv fuel v (HWord (WSExpr (Some p))) s) h = (h1, Ok s2).
Proof.
  intros V S hv tv h h1 p x fuel v v' s s1 calls s2 E Vx Hf R W. destruct fuel as [|fuel]; [cbn in Hf; lia|]. cbn [h_Walk h_visit_value is_rule]. rewrite (mbind_ok _ _ _ _ _ E). cbn [fst snd].
  inversion Vx; subst. match goal with A : nth_error h1 p = Some (CSExpr c) |- _ => rename A into Gp end. rewrite (mbind_ok _ _ _ _ _ (get_sexpr_ok _ _ _ Gp)).
  cbn [children] in W. inversion W as [|? ? ? ? c1 sm c2 ? W1 W2]; subst.
  assert (O : run (h_visit_op hv v' (h_op c) s1) h1 = (h1, Ok sm)).
  { rewrite (ro_op hv tv h1 R v' (h_op c) (s_op x)) by assumption. assert (K : walk tv v' (node_of_op (s_op x)) s1 = WDone sm) by (apply walk_iff; exists c1; exact W1).
    assert (L : walk tv v' (node_of_op (s_op x)) s1 = walk_op tv v' (s_op x) s1).
    { destruct (s_op x); reflexivity. }
    rewrite <- L, K. reflexivity. }
  rewrite (mbind_ok _ _ _ _ _ O). rewrite (mbind_ok _ _ _ _ _ (get_sexpr_ok _ _ _ Gp)).
  match goal with A : slice_at _ (h_args c) ws |- _ => rename A into Sl end. rewrite (proj1 Sl).
  rewrite (ro_each h1 (fun w t => value_at (nth_error h1) w t /\ In t (s_args x)) (h_visit_value hv fuel v') (fun a => walk_value tv v' a) (h_args c)) with (ts := s_args x) (ws1 := []).
  - assert (K : wfor (fun a => walk_value tv v' a) (s_args x) sm = WDone s2).
    { clear -W2. revert sm c2 W2. induction (s_args x) as [|a l IH]; intros sm c2 W2; cbn [map] in W2; inversion W2; subst; [reflexivity|]. cbn [wfor].
      assert (K : walk tv v' (node_of_value a) sm = WDone s') by (apply walk_iff; eexists; eassumption).
      assert (L : walk tv v' (node_of_value a) sm = walk_value tv v' a sm) by (destruct a; reflexivity). rewrite <- L, K. cbn [wbind]. eapply IH; eassumption. }
    rewrite K. reflexivity.
  - intros w0 t0 s0 [V0 I0]. pose proof (proj1 (Forall_forall _ _) (heights _ _ Hf) _ I0). eapply ro_value; eassumption.
  - exact Sl.
  - apply Forall2_in. assumption.
Qed.
Print Assumptions C76_children_after_visit.

(** Inspect with a callback that edits the attributes of every S-expression: each is edited
    once for each time it is met, and nothing else in memory changes. *)
Theorem C76_edit_in_place :
  forall (e : attrs -> attrs) (h : heap) f F fuel k,
    file_at (nth_error h) f F -> nil_free (NFile F) -> file_height F <= fuel ->
    exists l h', met_file (nth_error h) f l /\
      run (h_Inspect (editing e) fuel (HFile (Some f)) k) h = (h', Ok (k + List.length l)) /\ edited e l h h'.
Proof.
  intros e h f F fuel k Ft N Hf. destruct (met_file_exists _ _ _ Ft N) as [l Ml]. destruct (ed_file e h F fuel f l k Hf Ft Ml N) as (h' & R & E). exists l, h'. auto.
Qed.
Print Assumptions C76_edit_in_place.

(** If editing twice is editing once, the file then holds the edited tree, however it shares
    its nodes; and a file that shares no S-expression with it holds the tree it held. *)
Theorem C76_edited_file :
  forall (e : attrs -> attrs) (h h' : heap) f F fuel k r,
    (forall c, edit_struct e (edit_struct e c) = edit_struct e c) ->
    file_at (nth_error h) f F -> nil_free (NFile F) -> file_height F <= fuel ->
    run (h_Inspect (editing e) fuel (HFile (Some f)) k) h = (h', r) ->
    file_at (nth_error h') f (edit_file e F).
Proof.
  intros e h h' f F fuel k r Once Ft N Hf R. destruct (C76_edit_in_place e h f F fuel k Ft N Hf) as (l & h2 & Ml & R2 & E). rewrite R2 in R. injection R as <- _.
  eapply (after_file e l h h2 E (fun p c => times_once e l p c Once)); [exact Ft|exact Ml|apply incl_refl].
Qed.
Print Assumptions C76_edited_file.
(** So it does, whatever the edit, if no S-expression is met twice. *)
Theorem C76_unshared_file :
  forall (e : attrs -> attrs) (h h' : heap) f F fuel k r l,
    met_file (nth_error h) f l -> NoDup l ->
    file_at (nth_error h) f F -> nil_free (NFile F) -> file_height F <= fuel ->
    run (h_Inspect (editing e) fuel (HFile (Some f)) k) h = (h', r) ->
    r = Ok (k + sexprs_of_file F) /\ file_at (nth_error h') f (edit_file e F).
Proof.
  intros e h h' f F fuel k r l Ml U Ft N Hf R. destruct (ed_file e h F fuel f l k Hf Ft Ml N) as (h2 & R2 & E).
  unfold h_Inspect, h_Walk in R. rewrite R2 in R. injection R as <- <-. split; [rewrite (met_file_length _ _ _ _ Ft Ml); reflexivity|].
  eapply (after_file e l h h2 E (fun p c => times_NoDup e l p c U)); [exact Ft|exact Ml|apply incl_refl].
Qed.
Print Assumptions C76_unshared_file.
(** And none is in a file fresh from the parser: parsing it, editing it with Inspect and
    printing it, all with pointers, prints the edited tree; every S-expression of the file
    was edited, and what was in memory before parsing is untouched. *)
Theorem C76_parse_edit_print :
  forall (e : attrs -> attrs) gp spare filename data (h : heap) F fuel k,
    Parse gp filename data = Ok F -> file_height F <= fuel ->
    exists p h1 h2, h_Parse gp spare filename data h = (h1, Ok p) /\
      run (h_Inspect (editing e) fuel (HFile (Some p)) k) h1 = (h2, Ok (k + sexprs_of_file F)) /\
      file_at (nth_error h2) p (edit_file e F) /\
      hp_Bytes fuel (PFile (Some p)) h2 = (h2, Bytes (NFile (edit_file e F))) /\
      (forall a c, nth_error h a = Some c -> nth_error h2 a = Some c).
Proof.
  intros e gp spare fn data h F fuel k P Hf. destruct (parse_fresh gp spare fn data h) as (h1 & r & E & K & Y). rewrite P in Y. destruct Y as (p & c & -> & A & B & N & Fr).
  pose proof (parsed_nil_free _ _ _ _ P) as Nf. destruct (met_file_exists _ _ _ A Nf) as [l Ml]. pose proof (met_file_cells _ _ _ _ B Ml) as Lc.
  assert (U : NoDup l). { apply once_NoDup. apply once_NoDup in N. intros x. specialize (N x). specialize (Lc x). lia. }
  destruct (ed_file e h1 F fuel p l k Hf A Ml Nf) as (h2 & R2 & Ed). exists p, h1, h2.
  destruct (C76_unshared_file e h1 h2 p F fuel k _ l Ml U A Nf Hf R2) as [Q A2]. injection Q as Q.
  split; [exact E|]. split; [unfold h_Inspect, h_Walk; rewrite R2, Q; reflexivity|]. split; [exact A2|]. split.
  - apply Bytes_of. intros w. apply (Fprint_file buf_write _ h2 (sub_refl _)); [rewrite edit_file_height; exact Hf|exact A2].
  - intros a x G. pose proof (keeps_sub _ _ K _ _ G) as G1. rewrite (Ed a), G1. destruct x; try reflexivity.
    rewrite (proj1 (count_occ_not_In Nat.eq_dec l a)); [reflexivity|]. intros I. apply (count_occ_In Nat.eq_dec) in I. specialize (Lc a).
    assert (Ic : In a c) by (apply (count_occ_In Nat.eq_dec); lia). rewrite Forall_forall in Fr. apply Fr in Ic.
    assert (nth_error h a <> None) by congruence. apply nth_error_Some in H. lia.
Qed.
Print Assumptions C76_parse_edit_print.
(** With pass.ExpandAlternates in between, what is printed is the expansion of the edited
    tree. *)
Theorem C76_parse_edit_expand_print :
  forall (e : attrs -> attrs) gp spare filename data (h : heap) F F' fuel k,
    Parse gp filename data = Ok F -> ExpandAlternates (edit_file e F) = Ok (F', None) ->
    file_height F <= fuel -> file_height F' <= fuel ->
    exists p h1 h2 h3, h_Parse gp spare filename data h = (h1, Ok p) /\
      run (h_Inspect (editing e) fuel (HFile (Some p)) k) h1 = (h2, Ok (k + sexprs_of_file F)) /\
      h_ExpandAlternates spare fuel (Some p) h2 = (h3, Ok tt) /\
      file_at (nth_error h3) p F' /\
      hp_Bytes fuel (PFile (Some p)) h3 = (h3, Bytes (NFile F')).
Proof.
  intros e gp spare fn data h F F' fuel k P X L L'. destruct (C76_parse_edit_print e gp spare fn data h F fuel k P L) as (p & h1 & h2 & E & R & A & _ & _).
  assert (Le : file_height (edit_file e F) <= fuel) by (rewrite edit_file_height; exact L).
  pose proof (C30_sharing_does_not_change_the_outcome spare fuel p h2 _ A Le) as O. rewrite X in O. destruct O as (h3 & E3 & A3).
  exists p, h1, h2, h3. split; [exact E|]. split; [exact R|]. split; [exact E3|]. split; [exact A3|].
  exact (proj1 (C66_after_expansion spare fuel p h2 h3 _ F' None A Le X E3 fuel L')).
Qed.
Print Assumptions C76_parse_edit_expand_print.
Theorem C76_other_files :
  forall (e : attrs -> attrs) (h h' : heap) f F f2 F2 fuel k r l l2,
    file_at (nth_error h) f F -> nil_free (NFile F) -> file_height F <= fuel ->
    run (h_Inspect (editing e) fuel (HFile (Some f)) k) h = (h', r) ->
    file_at (nth_error h) f2 F2 -> met_file (nth_error h) f l -> met_file (nth_error h) f2 l2 -> (forall p, In p l2 -> ~ In p l) ->
    file_at (nth_error h') f2 F2.
Proof.
  intros e h h' f F f2 F2 fuel k r l l2 Ft N Hf R Ft2 Ml Ml2 D. destruct (ed_file e h F fuel f l k Hf Ft Ml N) as (h2 & R2 & E).
  unfold h_Inspect, h_Walk in R. rewrite R2 in R. injection R as <- _. exact (apart_file e l h h2 E f2 F2 l2 Ft2 Ml2 D).
Qed.
Print Assumptions C76_other_files.

(** Non-vacuity.  The file at 7 has one rule, whose sides are one node, 1, with an argument,
    0.  Setting types: both nodes are met twice, the types are set, and the file at 8, which
    has that rule twice, shows it too. *)
Definition ex_set (a : attrs) : attrs :=
  {| a_binding := []; a_type := str "UInt8"; a_auxint := false; a_aux := a_aux a; a_ellipsis := a_ellipsis a; a_trailing := true |}.
(** Adding to the type each time: not the same twice as once. *)
Definition ex_add (a : attrs) : attrs :=
  {| a_binding := a_binding a; a_type := a_type a ++ str "x"; a_auxint := a_auxint a; a_aux := a_aux a; a_ellipsis := a_ellipsis a; a_trailing := a_trailing a |}.
Definition type_at (h : heap) (p : nat) : option text := match nth_error h p with Some (CSExpr c) => Some (h_type c) | _ => None end.
Lemma ex_value_at : value_at (nth_error ex_heap) (WSExpr (Some 1)) ex_value.
Proof.
  eapply (at_sexpr _ 1 ex_top _ [WVar (str "x"); WSExpr (Some 0)]); cbn; try reflexivity; try exact I.
  - split; [reflexivity|]. right. exists [], []. split; reflexivity.
  - constructor; [constructor|]. constructor; [|constructor].
    eapply (at_sexpr _ 0 ex_node _ [WVar (str "x")]); cbn; try reflexivity; try exact I.
    + split; [reflexivity|]. right. exists [WNil], []. split; reflexivity.
    + constructor; [constructor|constructor].
Qed.
Lemma ex_file_at : file_at (nth_error ex_heap) 7 {| f_rules := [ex_tree] |}.
Proof.
  eexists _, [WRule (Some 5)]. split; [reflexivity|]. split; [split; [reflexivity|right; exists [], [WRule (Some 5)]; split; reflexivity]|].
  constructor; [|constructor]. exists 5, ex_rule. pose proof ex_value_at as V. cbn. auto 10.
Qed.
Lemma ex_nil_free : nil_free (NFile {| f_rules := [ex_tree] |}).
Proof. apply nil_free_test. reflexivity. Qed.
Example C76_edit_example :
  (forall c, edit_struct ex_set (edit_struct ex_set c) = edit_struct ex_set c) /\
  file_at (nth_error ex_heap) 7 {| f_rules := [ex_tree] |} /\ nil_free (NFile {| f_rules := [ex_tree] |}) /\ file_height {| f_rules := [ex_tree] |} <= 9 /\
  exists h', run (h_Inspect (editing ex_set) 9 (HFile (Some 7)) 0) ex_heap = (h', Ok 4) /\
    type_at h' 0 = Some (str "UInt8") /\ type_at h' 1 = Some (str "UInt8") /\
    file_at (nth_error h') 7 (edit_file ex_set {| f_rules := [ex_tree] |}) /\ edit_file ex_set {| f_rules := [ex_tree] |} <> {| f_rules := [ex_tree] |}.
Proof.
  assert (O : forall c, edit_struct ex_set (edit_struct ex_set c) = edit_struct ex_set c) by (intros c; unfold edit_struct; cbn; destruct (h_aux c); reflexivity).
  split; [exact O|]. split; [exact ex_file_at|]. split; [exact ex_nil_free|]. split; [vm_compute; lia|].
  destruct (run (h_Inspect (editing ex_set) 9 (HFile (Some 7)) 0) ex_heap) as [h' r] eqn:E.
  assert (K : file_at (nth_error h') 7 (edit_file ex_set {| f_rules := [ex_tree] |})) by (eapply C76_edited_file; [exact O|exact ex_file_at|exact ex_nil_free| |exact E]; vm_compute; lia).
  exists h'. vm_compute in E. injection E as <- <-. split; [reflexivity|]. split; [reflexivity|]. split; [reflexivity|]. split; [exact K|discriminate].
Qed.
Example C76_edited_twice :
  exists h', run (h_Inspect (editing ex_add) 9 (HFile (Some 7)) 0) ex_heap = (h', Ok 4) /\
    type_at h' 0 = Some (str "xx") /\ type_at h' 1 = Some (str "xx").
Proof. eexists. split; [vm_compute; reflexivity|]. split; reflexivity. Qed.

(** Adding to each type of a parsed file: each once. *)
Definition ex_src : text := str "(Add (Neg x) y) => @b (Neg <t> x)".
Example C76_parse_edit_print_example : exists F p h1 h2,
  Parse ParseExpr (str "f") ex_src = Ok F /\ sexprs_of_file F = 3 /\ file_height F <= 9 /\
  h_Parse ParseExpr (fun _ _ => 1) (str "f") ex_src ex_heap = (h1, Ok p) /\
  run (h_Inspect (editing ex_add) 9 (HFile (Some p)) 0) h1 = (h2, Ok 3) /\
  hp_Bytes 9 (PFile (Some p)) h2 = (h2, Ok (str "(Add <x> (Neg <x> x) y) => @b (Neg <tx> x)" ++ [nl])) /\
  edit_file ex_add (edit_file ex_add F) <> edit_file ex_add F.
Proof.
  do 4 eexists. split; [vm_compute; reflexivity|]. split; [reflexivity|]. split; [vm_compute; lia|]. split; [vm_compute; reflexivity|].
  split; [vm_compute; reflexivity|]. split; [vm_compute; reflexivity|]. discriminate.
Qed.

(** A callback that cuts the arguments off the node at 1: they are not visited. *)
Definition ex_cut {S} (note : hnode -> S -> S) (n : hnode) (s : S) : M (bool * S) :=
  match n with
  | HWord (WSExpr (Some 1)) => do c <- get_sexpr 1; do _ <- store 1 (CSExpr (set_args c nil_slice)); ret (true, note n s)
  | _ => ret (true, note n s)
  end.
Example C76_cut_example :
  exists h', run (h_Inspect (ex_cut (fun n log => log ++ [n])) 9 (HWord (WSExpr (Some 1))) []) ex_heap =
    (h', Ok [HWord (WSExpr (Some 1)); HOp (HParts 4); HPart (PCode (str "Add")); HPart (PAlt [str "8"; str "16"])]).
Proof. eexists. vm_compute. reflexivity. Qed.
Example C76_children_example :
  let hv := h_inspector (ex_cut (fun _ => S)) in let tv := fun (_ : unit) (_ : node) k => (Some tt, S k) in
  exists (h1 : heap) (x : sexpr), run (hv tt (HWord (WSExpr (Some 1))) 0) ex_heap = (h1, Ok (Some tt, 1)) /\
    value_at (nth_error h1) (WSExpr (Some 1)) (SExp x) /\ s_args x = [] /\ h1 <> ex_heap /\
    (forall v n t s, stands (nth_error h1) n t -> run (hv v n s) h1 = (h1, Ok (tv v t s))) /\
    (exists calls, WalksAll tv tt (children (NSExpr x)) 1 calls 4) /\
    run (h_Walk hv 9 tt (HWord (WSExpr (Some 1))) 0) ex_heap = (h1, Ok 4).
Proof.
  intros hv tv. eexists _, {| s_binding := []; s_op := OpcodeParts [PCode (str "Add"); PAlt [str "8"; str "16"]]; s_type := []; s_auxint := None; s_aux := None;
    s_args := []; s_ellipsis := false; s_trailing := false |}.
  split; [vm_compute; reflexivity|]. split; [|split; [reflexivity|split; [discriminate|split; [|split]]]].
  - eapply (at_sexpr _ 1 (set_args ex_top nil_slice) _ []); try reflexivity; try exact I; [split; [reflexivity|left; reflexivity]|constructor].
  - intros v n t s _. destruct n as [|[[[|[|]]|]| | | |]| |]; reflexivity.
  - eexists. eapply walks_cons; [|constructor]. eapply walks_down; [reflexivity|discriminate|]. eapply walks_cons; [apply walks_down with (v' := tt) (s' := 3); [reflexivity|discriminate|constructor]|].
    eapply walks_cons; [apply walks_down with (v' := tt) (s' := 4); [reflexivity|discriminate|constructor]|constructor].
  - vm_compute. reflexivity.
Qed.
(** What memory holds and a visitor that counts, with the opcodes' parts. *)
Example C76_read_example :
  let count {A} (_ : unit) (_ : A) (k : nat) := (Some tt, S k) in
  run (h_Walk (fun v n k => ret (count v n k)) 9 tt (HFile (Some 7)) 0) ex_heap = (ex_heap, Ok 18) /\
  walk (@count node) tt (NFile {| f_rules := [ex_tree] |}) 0 = WDone 18.
Proof. split; vm_compute; reflexivity. Qed.
(** A callback that, when it is shown the variable x, puts q in the place of the next
    argument of the node at 1: q is visited, and not what was there. *)
Definition ex_swap (n : hnode) (log : list hnode) : M (bool * list hnode) :=
  match n with
  | HWord (WVar _) => do _ <- store 3 (CArr [WVar (str "x"); WVar (str "q")]); ret (true, log ++ [n])
  | _ => ret (true, log ++ [n])
  end.
Example C76_tour_example :
  exists calls h', Tour (h_inspector ex_swap) tt (HWord (WSExpr (Some 1))) [] ex_heap calls
    [HWord (WSExpr (Some 1)); HOp (HParts 4); HPart (PCode (str "Add")); HPart (PAlt [str "8"; str "16"]); HWord (WVar (str "x")); HWord (WVar (str "q"))] h'.
Proof.
  assert (E : exists h', run (h_Walk (h_inspector ex_swap) 9 tt (HWord (WSExpr (Some 1))) []) ex_heap =
    (h', Ok [HWord (WSExpr (Some 1)); HOp (HParts 4); HPart (PCode (str "Add")); HPart (PAlt [str "8"; str "16"]); HWord (WVar (str "x")); HWord (WVar (str "q"))])) by (eexists; vm_compute; reflexivity).
  destruct E as [h' E]. destruct (proj2 (C76_any_visitor _ _ _ _ _ _ _ h' _) (ex_intro _ 9 E)) as [calls T]. exists calls, h'. exact T.
Qed.
