(** Property C69: what the rules of an expanded file share. *)
From Verif Require Import Text GoAst Ast Expand Utf8 GoExpr Peg Grammar Parse GoParser Printer Heap HeapPrint HeapParse.
From Verif Require Import SpecExpand SpecHeap SpecFresh SpecOwn TreeFacts ExpandFacts HeapFacts HeapParseFacts HeapDumpUnique OwnFacts OwnUse PropertiesHeap PropertiesFresh.
From Coq Require Import Arith Lia NArith.
Open Scope nat_scope.
Open Scope list_scope.

(** *** C69: expanding a file makes a rule and its nodes with alternatives anew, once for each alternative,
    and shares the rest

    [spare] is how much append over-allocates, [fuel] the depth of the stack.  The source file may share what it
    likes.  [wss] are the rules of the file afterwards, one list for each rule of the source, and [csss] the cells
    made for each of them: none of the cells existed before and no two of them are the same.  [rules_expanded]
    (SpecOwn.v) says what they hold. *)
Theorem C69_instances :
  forall spare fuel f (h : heap) F F' sl ws,
    nth_error h f = Some (CFile sl) -> slice_at (nth_error h) sl ws -> Forall2 (rule_at (nth_error h)) ws (f_rules F) ->
    file_height F <= fuel -> ExpandAlternates F = Ok (F', None) ->
    exists h' sl' wss csss,
      h_ExpandAlternates spare fuel (Some f) h = (h', Ok tt) /\
      nth_error h' f = Some (CFile sl') /\ slice_at (nth_error h') sl' (List.concat wss) /\
      Forall2 (rule_at (nth_error h')) (List.concat wss) (f_rules F') /\
      rules_expanded (nth_error h') (List.length h) (f_rules F) ws wss csss /\
      NoDup (slice_cells sl' ++ List.concat (List.concat csss)) /\
      (forall a, In a (slice_cells sl' ++ List.concat (List.concat csss)) -> nth_error h a = None).
Proof.
  intros spare fuel f h F F' sl ws G Sl Fw L E. destruct (expand_own spare fuel f h F F' sl ws G Sl Fw L E) as (h' & sl' & wss & csss & X & G' & Sl' & R & O & W).
  exists h', sl', wss, csss. split; [exact X|]. split; [exact G'|]. split; [exact Sl'|]. split; [|split; [exact R|split; [apply once_NoDup; exact O|]]].
  - pose proof (expand_ok spare fuel f h F (ex_intro _ sl (ex_intro _ ws (conj G (conj Sl Fw)))) L) as Q. rewrite E in Q. destruct Q as (h2 & X2 & sl2 & ws2 & G2 & Sl2 & F2).
    rewrite X in X2. injection X2 as <-. rewrite G' in G2. injection G2 as <-. rewrite (slice_at_det _ _ _ _ Sl' Sl2). exact F2.
  - intros a Ia. apply cnt_in in Ia. apply W in Ia. apply nth_error_None. lia.
Qed.
Print Assumptions C69_instances.

Lemma Forall2_at {A B} (P : A -> B -> Prop) l l' : Forall2 P l l' -> forall k x, nth_error l k = Some x -> exists y, nth_error l' k = Some y /\ P x y.
Proof. intros F. induction F as [|a b l l' Q F IH]; intros [|k] x E; try discriminate; [injection E as <-; exists b; auto|exact (IH k x E)]. Qed.

(** So whoever writes into a cell that the pass has made (anything at all, into any of them) changes at
    most one of the rules of the file. *)
Theorem C69_new_is_private :
  forall spare fuel f (h h' : heap) F sl' ws',
    file_at (nth_error h) f F -> file_height F <= fuel -> h_ExpandAlternates spare fuel (Some f) h = (h', Ok tt) ->
    nth_error h' f = Some (CFile sl') -> slice_at (nth_error h') sl' ws' ->
    forall a c, nth_error h a = None ->
    exists i, forall j w r, j <> i -> nth_error ws' j = Some w -> rule_at (nth_error h') w r -> rule_at (nth_error (write a c h')) w r.
Proof.
  intros spare fuel f h h' F sl' ws' (sl & ws & G & Sl & Fw) L X G' Sl' a c Na.
  assert (E : exists F', ExpandAlternates F = Ok (F', None)).
  { pose proof (expand_ok spare fuel f h F (ex_intro _ sl (ex_intro _ ws (conj G (conj Sl Fw)))) L) as Q. destruct (ExpandAlternates F) as [[F' [e|]]|e|m]; [destruct Q as (? & Q & _); congruence|eauto|contradiction|destruct Q as (? & Q & _); congruence]. }
  destruct E as [F' E]. destruct (expand_own spare fuel f h F F' sl ws G Sl Fw L E) as (h2 & sl2 & wss & csss & X2 & G2 & Sl2 & R & O & W). rewrite X in X2. injection X2 as <-. rewrite G' in G2. injection G2 as <-.
  rewrite (slice_at_det _ _ _ _ Sl' Sl2). apply once_app in O. destruct O as (_ & O & _).
  destruct (one_group (List.concat csss) a) as [i Hi].
  { intros i j x y N Ex Ey Ix Iy. apply cnt_in in Ix, Iy. exact (once_groups _ O i j x y a N Ex Ey Ix Iy). }
  exists i. intros j w r N Ew Rw.
  pose proof (expand_keeps _ _ _ _ _ _ X) as S. set (g0 := nofile (nth_error h)) in *.
  assert (S' : sub g0 (nth_error (write a c h'))).
  { intros p x Hp. rewrite (write_off a c h' p); [exact (S p x Hp)|]. intros ->. unfold g0, nofile in Hp. rewrite Na in Hp. discriminate. }
  pose proof (expanded_rules g0 _ _ _ _ _ _ R (rules_nofile _ _ _ Fw)) as F2. destruct (Forall2_at _ _ _ F2 j w Ew) as (cs & Ecs & [[r0 Q]|(r0 & w0 & Q & C)]).
  - rewrite (rule_at_fun _ w r r0 Rw (rule_at_mono _ _ S _ _ Q)). exact (rule_at_mono _ _ S' _ _ Q).
  - apply (rule_copied_edit g0 _ _ a (List.length h) S S' (write_off a c h') r0 w0 w cs C Q (Hi j cs N Ecs) r Rw).
Qed.
Print Assumptions C69_new_is_private.

(** If the source file shared nothing, then whoever writes into any cell at all changes only rules that come from
    one and the same rule of the source: the instances of different rules have no memory in common, and
    no rule uses a cell twice. *)
Theorem C69_unshared_source :
  forall spare fuel f (h h' : heap) F cells,
    file_at (nth_error h) f F -> file_height F <= fuel ->
    file_cells (nth_error h) f cells -> NoDup cells -> (forall a, In a cells -> nth_error h a <> None) ->
    h_ExpandAlternates spare fuel (Some f) h = (h', Ok tt) ->
    exists sl wss csss,
      nth_error h' f = Some (CFile sl) /\ slice_at (nth_error h') sl (List.concat wss) /\
      Forall2 (fun r ws => List.length ws = arity (rule_groups r)) (f_rules F) wss /\
      Forall2 (Forall2 (rule_cells (nth_error h'))) wss csss /\
      (forall cs, In cs (List.concat csss) -> NoDup cs) /\
      (forall i j cs ds a, i <> j -> nth_error csss i = Some cs -> nth_error csss j = Some ds -> In a (List.concat cs) -> ~ In a (List.concat ds)) /\
      (forall a, nth_error h a = None -> count_occ Nat.eq_dec (List.concat (List.concat csss)) a <= 1) /\
      (forall a c, exists i, forall k ws w r, k <> i -> nth_error wss k = Some ws -> In w ws -> rule_at (nth_error h') w r -> rule_at (nth_error (write a c h')) w r).
Proof.
  intros spare fuel f h h' F cells A L C N D X. destruct (expand_file_cells spare fuel f h h' F cells A C N D L X) as (sl & wss & csss & G & Sl & Ar & Rc & Nd & Dj & On).
  exists sl, wss, csss. repeat (split; [assumption|]). intros a c. destruct (one_group (map (@List.concat nat) csss) a) as [i Hi].
  { intros i j x y Nij Ex Ey Ix. rewrite nth_error_map in Ex, Ey. destruct (nth_error csss i) eqn:E1; [|discriminate]. destruct (nth_error csss j) eqn:E2; [|discriminate]. injection Ex as <-. injection Ey as <-. eapply Dj; eauto. }
  exists i. intros k ws w r Nk Ek Iw Rw. destruct (Forall2_at _ _ _ Rc k ws Ek) as (css & Ec & F2). apply In_nth_error in Iw. destruct Iw as [m Em]. destruct (Forall2_at _ _ _ F2 m w Em) as (cs & Es & Q).
  apply (rule_edit _ _ a (write_off a c h') w r cs Rw Q). intros Ia. apply (Hi k (List.concat css) Nk); [rewrite nth_error_map, Ec; reflexivity|]. apply in_concat. exists cs. split; [eapply nth_error_In; eauto|exact Ia].
Qed.
Print Assumptions C69_unshared_source.

(** That is so of a file that was parsed and then expanded. *)
Theorem C69_parsed :
  forall gp spare filename data (h h1 h2 : heap) p f fuel,
    h_Parse gp spare filename data h = (h1, Ok p) -> Parse gp filename data = Ok f -> file_height f <= fuel ->
    h_ExpandAlternates spare fuel (Some p) h1 = (h2, Ok tt) ->
    exists sl wss csss,
      nth_error h2 p = Some (CFile sl) /\ slice_at (nth_error h2) sl (List.concat wss) /\
      Forall2 (fun r ws => List.length ws = arity (rule_groups r)) (f_rules f) wss /\
      Forall2 (Forall2 (rule_cells (nth_error h2))) wss csss /\
      (forall cs, In cs (List.concat csss) -> NoDup cs) /\
      (forall i j cs ds a, i <> j -> nth_error csss i = Some cs -> nth_error csss j = Some ds -> In a (List.concat cs) -> ~ In a (List.concat ds)) /\
      (forall a, nth_error h1 a = None -> count_occ Nat.eq_dec (List.concat (List.concat csss)) a <= 1) /\
      (forall a c, exists i, forall k ws w r, k <> i -> nth_error wss k = Some ws -> In w ws -> rule_at (nth_error h2) w r -> rule_at (nth_error (write a c h2)) w r).
Proof.
  intros gp spare fn data h h1 h2 p f fuel E P L X. destruct (parse_fresh gp spare fn data h) as (g & r & E2 & K & Y). rewrite E in E2. injection E2 as <- <-. rewrite P in Y. destruct Y as (p' & cs & Z & A & B & N & Fc). injection Z as <-.
  apply (C69_unshared_source spare fuel p h1 h2 f cs A L B N); [|exact X]. intros a Ia. rewrite Forall_forall in Fc. apply nth_error_Some. apply Fc in Ia. lia.
Qed.
Print Assumptions C69_parsed.

(** Instances of one rule are not independent: a user who parses
      (Add(8|16) (Neg8 x) y) => y
    expands it and then sets the operation of the first argument of the first rule to Neg16 has changed both rules.
    [first_argument_op] assigns op to f.Rules[0].Match.Args[0].Op, with both
    values asserted to be S-expressions. *)
Definition first_argument_op (f : nat) (op : text) : M unit :=
  do c <- get f;
  match c with
  | CFile sl => do w <- at_ sl 0;
      match w with
      | WRule (Some r) => do r <- get_rule r;
          match h_match r with
          | WSExpr (Some s) => do s <- get_sexpr s; do w <- at_ (h_args s) 0;
              match w with WSExpr (Some a) => do x <- get_sexpr a; store a (CSExpr (set_op x (HOpcode op))) | _ => panics nil_deref end
          | _ => panics nil_deref
          end
      | _ => panics nil_deref
      end
  | _ => panics nil_deref
  end.
Definition second_rule (op : text) : rule :=
  let s o a := {| s_binding := []; s_op := Opcode o; s_type := []; s_auxint := None; s_aux := None; s_args := a; s_ellipsis := false; s_trailing := false |} in
  {| r_match := SExp (s (str "Add16") [SExp (s op [Var (str "x")]); Var (str "y")]); r_cond := None; r_block := []; r_result := Var (str "y") |}.
Theorem C69_independence_refuted :
  ~ (forall gp spare filename data p (h h1 h2 h3 : heap) fuel op,
      h_Parse gp spare filename data h = (h1, Ok p) -> h_ExpandAlternates spare fuel (Some p) h1 = (h2, Ok tt) ->
      first_argument_op p op h2 = (h3, Ok tt) ->
      forall sl ws w r, nth_error h2 p = Some (CFile sl) -> slice_at (nth_error h2) sl (ws ++ [w]) -> ws <> [] ->
      rule_at (nth_error h2) w r -> rule_at (nth_error h3) w r).
Proof.
  intros C.
  set (src := str "(Add(8|16) (Neg8 x) y) => y").
  destruct (h_Parse ParseExpr (fun _ _ => 0) (str "f") src []) as [h1 r1] eqn:E1.
  destruct r1 as [p|e|m]; [|vm_compute in E1; discriminate|vm_compute in E1; discriminate].
  destruct (h_ExpandAlternates (fun _ _ => 0) 9 (Some p) h1) as [h2 r2] eqn:E2.
  destruct (first_argument_op p (str "Neg16") h2) as [h3 r3] eqn:E3.
  pose proof E1 as X1. vm_compute in X1. injection X1 as Q1 Q2. subst h1 p.
  pose proof E2 as X2. vm_compute in X2. injection X2 as Q1 Q2. subst h2 r2.
  pose proof E3 as X3. vm_compute in X3. injection X3 as Q1 Q2. subst h3 r3.
  specialize (C _ _ _ _ _ _ _ _ _ _ _ E1 E2 E3). clear E1 E2 E3.
  assert (S1 : forall g sl ws pre post, g (sl_arr sl) = Some (CArr (pre ++ ws ++ post)) -> List.length pre = sl_off sl -> sl_len sl = List.length ws -> slice_at g sl ws)
    by (intros; split; [assumption|right; eauto]).
  match type of C with forall sl ws w r, ?a -> ?b -> ?c -> rule_at (nth_error ?h2) w r -> rule_at (nth_error ?h3) w r =>
    assert (A : rule_at (nth_error h2) (WRule (Some 22)) (second_rule (str "Neg8")));
    [|assert (B : rule_at (nth_error h3) (WRule (Some 22)) (second_rule (str "Neg16")))] end.
  1, 2: eexists _, _; split; [reflexivity|]; split; [reflexivity|]; cbn; split; [|split; [exact I|split; [reflexivity|constructor]]];
    eapply at_sexpr with (ws := [_; _]); try reflexivity; try exact I; [apply (S1 _ _ _ [] []); reflexivity|]; cbn; constructor; [|repeat constructor];
    eapply at_sexpr with (ws := [_]); try reflexivity; try exact I; [apply (S1 _ _ _ [] []); reflexivity|]; cbn; repeat constructor.
  assert (Q : second_rule (str "Neg16") = second_rule (str "Neg8")).
  { eapply rule_at_fun; [exact B|]. eapply (C _ [WRule (Some 21)]); [reflexivity|apply (S1 _ _ _ [] []); reflexivity|discriminate|exact A]. }
  discriminate Q.
Qed.
Print Assumptions C69_independence_refuted.

(** The same with the printer: both lines have changed. *)
Example C69_seen : exists h1 h2 h3 p,
  h_Parse ParseExpr (fun _ _ => 0) (str "f") (str "(Add(8|16) (Neg8 x) y) => y") [] = (h1, Ok p) /\
  h_ExpandAlternates (fun _ _ => 0) 9 (Some p) h1 = (h2, Ok tt) /\ first_argument_op p (str "Neg16") h2 = (h3, Ok tt) /\
  hp_Bytes 9 (PFile (Some p)) h2 = (h2, Ok (str "(Add8 (Neg8 x) y) => y" ++ [nl] ++ str "(Add16 (Neg8 x) y) => y" ++ [nl])) /\
  hp_Bytes 9 (PFile (Some p)) h3 = (h3, Ok (str "(Add8 (Neg16 x) y) => y" ++ [nl] ++ str "(Add16 (Neg16 x) y) => y" ++ [nl])).
Proof. do 4 eexists. repeat (split; [vm_compute; reflexivity|]). vm_compute. reflexivity. Qed.

(** The hypotheses are met.  First by a source that shares a node and an array (PropertiesHeap.v): its one rule has two
    instances, of five new cells each, and the unexpanded node (Neg x), which is cell 0, is part of both. *)
Example C69_nonempty : exists h' F',
  file_at (nth_error ex_heap) 7 {| f_rules := [ex_tree] |} /\ file_height {| f_rules := [ex_tree] |} <= 9 /\
  ExpandAlternates {| f_rules := [ex_tree] |} = Ok (F', None) /\ List.length (f_rules F') = 2 /\
  h_ExpandAlternates (fun _ _ => 0) 9 (Some 7) ex_heap = (h', Ok tt) /\
  rules_expanded (nth_error h') 9 [ex_tree] [WRule (Some 5)] [[WRule (Some 30); WRule (Some 31)]] [[[30; 13; 15; 23; 25]; [31; 16; 18; 26; 28]]] /\
  rule_cells (nth_error h') (WRule (Some 30)) [30; 13; 15; 0; 2; 23; 25; 0; 2] /\
  rule_cells (nth_error h') (WRule (Some 31)) [31; 16; 18; 0; 2; 26; 28; 0; 2].
Proof.
  pose proof (proj1 C30_nonempty) as A.
  destruct (h_ExpandAlternates (fun _ _ => 0) 9 (Some 7) ex_heap) as [h' r] eqn:E. pose proof E as X. vm_compute in X. injection X as Q1 Q2. subst h' r.
  assert (S1 : forall g sl ws pre post, g (sl_arr sl) = Some (CArr (pre ++ ws ++ post)) -> List.length pre = sl_off sl -> sl_len sl = List.length ws -> slice_at g sl ws)
    by (intros; split; [assumption|right; eauto]).
  do 2 eexists. split; [exact A|]. split; [cbn; lia|]. split; [vm_compute; reflexivity|]. split; [reflexivity|]. split; [reflexivity|]. clear A E. split; [|split].
  - eapply more_rules with (y := [_; _]) (x := [_; _]); [|apply no_rules]. right. split; [discriminate|]. split; [reflexivity|].
    assert (V : forall g a o ar arr, g 1 = Some (CSExpr ex_top) -> g 3 = Some (CArr [WVar (str "x"); WSExpr (Some 0)]) ->
      arr = {| sl_arr := ar; sl_off := 0; sl_len := 2; sl_cap := 2 |} -> g ar = Some (CArr [WVar (str "x"); WSExpr (Some 0)]) ->
      g a = Some (CSExpr {| h_binding := []; h_op := HOpcode o; h_type := []; h_auxint := None; h_aux := None; h_args := arr; h_ellipsis := false; h_trailing := false |}) ->
      9 <= a -> 9 <= ar -> copied g 9 ex_value (WSExpr (Some 1)) (WSExpr (Some a)) [a; ar]).
    { intros g a o ar arr G1 G3 -> Ga Gs La Lr. unfold ex_value. match goal with |- copied _ _ (SExp ?v) _ _ _ => set (s := v) end.
      apply (renewed g 9 s 1 ex_top [WVar (str "x"); WSExpr (Some 0)] a o {| sl_arr := ar; sl_off := 0; sl_len := 2; sl_cap := 2 |} [WVar (str "x"); WSExpr (Some 0)] []); auto; [discriminate|apply (S1 _ _ _ [] []); auto| | |].
      - intros b [<-|[]]. exact Lr. - apply (S1 _ _ _ [] []); auto. - apply (more_values g 9 _ _ _ _ _ _ [] []); [apply kept; reflexivity|]. apply (more_values g 9 _ _ _ _ _ _ [] []); [apply kept; reflexivity|]. apply no_values. }
    constructor; [|constructor; [|constructor]]; eexists 5, ex_rule, _, _, _, [_; _], [_; _]; (split; [reflexivity|]); (split; [reflexivity|]); (split; [reflexivity|]); (split; [lia|]); (split; [reflexivity|]).
    + split; [eapply (V _ 13 _ 15); try reflexivity; lia|]. split; [eapply (V _ 23 _ 25); try reflexivity; lia|]. reflexivity.
    + split; [eapply (V _ 16 _ 18); try reflexivity; lia|]. split; [eapply (V _ 26 _ 28); try reflexivity; lia|]. reflexivity.
  - eexists _, _, _, _. split; [reflexivity|]. split; [reflexivity|]. split; [|split].
    1, 2: eapply vc_sexpr with (ws := [_; _]); [reflexivity|apply (S1 _ _ _ [] []); reflexivity|]; constructor; [constructor|]; constructor; [|constructor];
      eapply vc_sexpr with (ws := [_]); [reflexivity|apply (S1 _ _ _ [WNil] []); reflexivity|]; repeat constructor.
    reflexivity.
  - eexists _, _, _, _. split; [reflexivity|]. split; [reflexivity|]. split; [|split].
    1, 2: eapply vc_sexpr with (ws := [_; _]); [reflexivity|apply (S1 _ _ _ [] []); reflexivity|]; constructor; [constructor|]; constructor; [|constructor];
      eapply vc_sexpr with (ws := [_]); [reflexivity|apply (S1 _ _ _ [WNil] []); reflexivity|]; repeat constructor.
    reflexivity.
Qed.

(** Then by a parsed file with two rules, of which the first has two instances. *)
Definition own_src : text := str "(Add(8|16) (Neg8 x) y) => y" ++ [nl] ++ str "(Sub8 x x) => (Const8 [0])".
Example C69_parsed_nonempty : exists f h1 h2 p sl,
  Parse ParseExpr (str "f") own_src = Ok f /\ List.map (fun r => arity (rule_groups r)) (f_rules f) = [2; 1] /\
  h_Parse ParseExpr (fun _ _ => 1) (str "f") own_src ex_heap = (h1, Ok p) /\ file_height f <= 9 /\
  h_ExpandAlternates (fun _ _ => 1) 9 (Some p) h1 = (h2, Ok tt) /\ nth_error h2 p = Some (CFile sl) /\ sl_len sl = 3.
Proof. do 5 eexists. split; [vm_compute; reflexivity|]. split; [vm_compute; reflexivity|]. split; [vm_compute; reflexivity|]. split; [vm_compute; lia|]. split; [vm_compute; reflexivity|]. split; vm_compute; reflexivity. Qed.
