(** C63: dumps of what shares objects. *)
From Verif Require Import Text GoAst Ast Expand Utf8 Quote Parse Dump SpecSyntax SpecDump DumpFacts PropertiesDump Heap SpecHeap HeapDump SpecShare HeapDumpFacts HeapDumpUnique PropertiesHeap SpecTyped TypedRead SpecBuilt PropertiesHeapPrint PropertiesTyped.
From Verif Require Import HeapDump SpecShare.
From Coq Require Import Arith NArith Bool Lia.
Open Scope nat_scope.
Open Scope list_scope.

(** *** C63: an object is shown where it is met first; after that there is the number of
    that line.

    [reached] are the objects that can be reached.  They may share parts in any way and
    even lie on cycles; pointers may be nil.  [fuel] is the depth of the stack: a level for
    every object is enough. *)
Theorem C63_layout :
  forall wide_print other (h : heap) reached n fuel,
    closed (nth_error h) reached -> ok_node (nth_error h) reached n -> List.length h < fuel ->
    exists d at_line,
      node_odoc wide_print (nth_error h) n d /\ first_met (events d) /\
      (forall a, In (Here a) (events d) -> nth_error (opened d) (at_line a) = Some (Some a)) /\
      List.length (opened d) = List.length (doc_lines 0 [] (spelled at_line d)) /\
      h_Dump wide_print other (nth_error h) fuel n = Ok (page 0 (doc_lines 0 [] (spelled at_line d))).
Proof.
  intros wp other h reached n fuel C O F.
  destruct (node_dump wp other (nth_error h) (List.length h) reached (fun a c G => proj1 (nth_error_Some h a) ltac:(congruence)) C fuel n F O) as (d & at_line & chunks & H1 & H2 & H3 & H4 & H5 & _).
  exists d, at_line. auto.
Qed.
Print Assumptions C63_layout.

(** That says all about it: there is only one such document. *)
Theorem C63_one_document :
  forall wide_print g n d d',
    node_odoc wide_print g n d -> first_met (events d) -> node_odoc wide_print g n d' -> first_met (events d') -> d = d'.
Proof. intros wp g n d d' H F H' F'. exact (node_unique wp g n d d' H H' F F'). Qed.
Print Assumptions C63_one_document.

(** Every writer is given the same text piece by piece, until its first error, which is
    returned. *)
Theorem C63_writer :
  forall wide_print other (h : heap) reached n fuel,
    closed (nth_error h) reached -> ok_node (nth_error h) reached n -> List.length h < fuel ->
    exists chunks, h_Dump wide_print other (nth_error h) fuel n = Ok (List.concat chunks) /\
      forall W (write : W -> text -> W * option text) w,
        h_Fprint write wide_print other (nth_error h) fuel n w = Ok (feed write chunks w).
Proof.
  intros wp other h reached n fuel C O F.
  destruct (node_dump wp other (nth_error h) (List.length h) reached (fun a c G => proj1 (nth_error_Some h a) ltac:(congruence)) C fuel n F O) as (d & at_line & chunks & _ & _ & _ & _ & _ & H).
  exists chunks. exact H.
Qed.
Print Assumptions C63_writer.

(** All of this holds for the trees of SpecHeap.v, in particular for what ExpandAlternates
    leaves behind (C30). *)
Theorem C63_trees :
  forall g, exists reached, closed g reached /\
    (forall p f, file_at g p f -> plain_node (NFile f) -> ok_node g reached (HFile (Some p))) /\
    (forall w r, rule_at g w r -> plain_rule r -> ok_node g reached (HWord w)) /\
    (forall w v, value_at g w v -> plain_value v -> ok_node g reached (HWord w)).
Proof.
  intros g. exists (tree_reached g). split; [apply trees_closed|]. split; [|split].
  - intros p f F P. split; [right; right; right; eauto|]. destruct F as (sl & ws & G & _). eauto.
  - intros w r R P. right. eapply rule_at_ok; eassumption.
  - intros w v V P. left. eapply value_at_ok; eassumption.
Qed.
Print Assumptions C63_trees.

(** If nothing is met twice, the dump is that of C58. *)
Theorem C63_without_sharing :
  forall wide_print other (h : heap) p f d fuel,
    file_at (nth_error h) p f -> plain_node (NFile f) -> List.length h < fuel ->
    node_odoc wide_print (nth_error h) (HFile (Some p)) d -> first_met (events d) -> (forall a, ~ In (There a) (events d)) ->
    h_Dump wide_print other (nth_error h) fuel (HFile (Some p)) = Dump wide_print other (NFile f).
Proof.
  intros wp other h p f d fuel F P Fu R M Nr. destruct (C63_trees (nth_error h)) as (reached & C & O & _).
  destruct (C63_layout wp other h reached _ fuel C (O p f F P) Fu) as (d' & at_line & R' & M' & _ & _ & ->).
  assert (d' = d) as -> by (eapply C63_one_document; eassumption). rewrite C58_layout by exact P. f_equal. unfold dump_page. do 2 f_equal.
  exact (file_spelled wp (nth_error h) at_line p d f R Nr F).
Qed.
Print Assumptions C63_without_sharing.

(** And of all memory that has Go's types, whatever was parsed, expanded, built and edited to get there, with
    pointers that are nil, shared or on cycles, if its Go expressions are of the kinds that parsing accepts: there is a
    dump, which is the only one that C63 allows. *)
Theorem C63_any_memory :
  forall wide_print other (h : heap) n fuel,
    typed (nth_error h) -> (forall a e, nth_error h a = Some (CExpr e) -> supported e) ->
    match n with
    | HFile f => file_ptr h f
    | HWord w => value_word (nth_error h) w \/ rule_word (nth_error h) w
    end -> List.length h < fuel ->
    ok_node (nth_error h) (fun _ => True) n /\ closed (nth_error h) (fun _ => True) /\
    exists d at_line,
      node_odoc wide_print (nth_error h) n d /\ first_met (events d) /\
      (forall a, In (Here a) (events d) -> nth_error (opened d) (at_line a) = Some (Some a)) /\
      h_Dump wide_print other (nth_error h) fuel n = Ok (page 0 (doc_lines 0 [] (spelled at_line d))).
Proof.
  intros wp other h n fuel T Su N F.
  assert (Oe : forall p, expr_ptr (nth_error h) p -> ok_expr (nth_error h) (fun _ => True) p).
  { intros [a|] H; [|exact I]. destruct (H a eq_refl) as [e E]. split; [exact I|]. exists e. split; [exact E|exact (Su _ _ E)]. }
  assert (Ov : forall w, SpecTyped.value_word (nth_error h) w -> ok_value (nth_error h) (fun _ => True) w).
  { intros [[a|]|e|x| |r] H; try exact I; [|exact (Oe _ H)|destruct H]. split; [exact I|]. destruct (H a eq_refl) as [c E]. eauto. }
  assert (Or : forall w, rule_word (nth_error h) w -> ok_rule (nth_error h) (fun _ => True) w).
  { intros [?|?|?| |[a|]] H; try (destruct H; fail); [|exact I]. split; [exact I|]. destruct (H a eq_refl) as [c E]. eauto. }
  assert (C : closed (nth_error h) (fun _ => True)).
  { intros a c _ E. pose proof (T _ _ E) as Tc. destruct c as [s|e|r|sl|l|ps]; cbn in *; try exact I.
    - destruct Tc as (O & X & Y & Sl). split; [exact (Oe _ X)|]. split; [exact (Oe _ Y)|]. split; [destruct (Heap.h_op s); auto|].
      destruct (slice_of_at _ _ _ Sl) as (ws & Sw & Fw). exists ws. split; [exact Sw|]. eapply Forall_impl; [exact Ov|exact Fw].
    - destruct Tc as (X & Y & Z). auto.
    - destruct (slice_of_at _ _ _ Tc) as (ws & Sw & Fw). exists ws. split; [exact Sw|]. eapply Forall_impl; [exact Or|exact Fw]. }
  assert (O : ok_node (nth_error h) (fun _ => True) n).
  { destruct n as [[p|]|w]; cbn in *; [|exact I|].
    - split; [exact I|]. exact (N p eq_refl).
    - destruct N as [N|N]; [left; exact (Ov _ N)|right; exact (Or _ N)]. }
  split; [exact O|]. split; [exact C|]. destruct (C63_layout wp other h (fun _ => True) n fuel C O F) as (d & at_line & H1 & H2 & H3 & _ & H5). exists d, at_line. auto.
Qed.
Print Assumptions C63_any_memory.
(** In memory with a rule that has an S-expression as its own argument: the argument is shown as a reference. *)
Example C63_cyclic_example :
  typed (nth_error knot_heap) /\ (forall a e, nth_error knot_heap a = Some (CExpr e) -> supported e) /\ file_ptr knot_heap (Some 4) /\
h_Dump (fun _ => true) (fun _ => []) (nth_error knot_heap) 9 (HFile (Some 4)) = Ok (with_newlines [
"     0  *ast.File {";
"     1  .  Rules: []*ast.Rule (len = 1) {";
"     2  .  .  0: *ast.Rule {";
"     3  .  .  .  Match: *ast.SExpr {";
"     4  .  .  .  .  Binding: ";
"     5  .  .  .  .  Op: Neg";
"     6  .  .  .  .  Type: ";
"     7  .  .  .  .  Args: []ast.Value (len = 1) {";
"     8  .  .  .  .  .  0: *(obj @ 3)";
"     9  .  .  .  .  }";
"    10  .  .  .  .  Ellipsis: false";
"    11  .  .  .  .  Trailing: false";
"    12  .  .  .  }";
"    13  .  .  .  Block: """"";
"    14  .  .  .  Result: x";
"    15  .  .  }";
"    16  .  }";
"    17  }"]%string).
Proof.
  split; [exact (proj1 (proj2 (proj2 C70_nonempty)))|]. split; [intros a e E; repeat (destruct a as [|a]; try discriminate E)|]. split; [intros p [= <-]; eexists; reflexivity|].
  vm_compute. reflexivity.
Qed.

(** The rule of C30, (Add(8|16) x (Neg x)) => (Add(8|16) x (Neg x)) with one node for both
    sides, expanded: (Neg x) is in all four sides, and is the same object. *)
Definition expanded : heap := fst (h_ExpandAlternates (fun _ _ => 0) 9 (Some 7) ex_heap).
Example C63_example :
  h_Dump (fun _ => true) (fun _ => []) (nth_error expanded) 99 (HFile (Some 7)) = Ok (with_newlines [
"     0  *ast.File {";
"     1  .  Rules: []*ast.Rule (len = 2) {";
"     2  .  .  0: *ast.Rule {";
"     3  .  .  .  Match: *ast.SExpr {";
"     4  .  .  .  .  Binding: ";
"     5  .  .  .  .  Op: Add8";
"     6  .  .  .  .  Type: ";
"     7  .  .  .  .  Args: []ast.Value (len = 2) {";
"     8  .  .  .  .  .  0: x";
"     9  .  .  .  .  .  1: *ast.SExpr {";
"    10  .  .  .  .  .  .  Binding: ";
"    11  .  .  .  .  .  .  Op: Neg";
"    12  .  .  .  .  .  .  Type: ";
"    13  .  .  .  .  .  .  Args: []ast.Value (len = 1) {";
"    14  .  .  .  .  .  .  .  0: x";
"    15  .  .  .  .  .  .  }";
"    16  .  .  .  .  .  .  Ellipsis: false";
"    17  .  .  .  .  .  .  Trailing: false";
"    18  .  .  .  .  .  }";
"    19  .  .  .  .  }";
"    20  .  .  .  .  Ellipsis: false";
"    21  .  .  .  .  Trailing: false";
"    22  .  .  .  }";
"    23  .  .  .  Block: """"";
"    24  .  .  .  Result: *ast.SExpr {";
"    25  .  .  .  .  Binding: ";
"    26  .  .  .  .  Op: Add8";
"    27  .  .  .  .  Type: ";
"    28  .  .  .  .  Args: []ast.Value (len = 2) {";
"    29  .  .  .  .  .  0: x";
"    30  .  .  .  .  .  1: *(obj @ 9)";
"    31  .  .  .  .  }";
"    32  .  .  .  .  Ellipsis: false";
"    33  .  .  .  .  Trailing: false";
"    34  .  .  .  }";
"    35  .  .  }";
"    36  .  .  1: *ast.Rule {";
"    37  .  .  .  Match: *ast.SExpr {";
"    38  .  .  .  .  Binding: ";
"    39  .  .  .  .  Op: Add16";
"    40  .  .  .  .  Type: ";
"    41  .  .  .  .  Args: []ast.Value (len = 2) {";
"    42  .  .  .  .  .  0: x";
"    43  .  .  .  .  .  1: *(obj @ 9)";
"    44  .  .  .  .  }";
"    45  .  .  .  .  Ellipsis: false";
"    46  .  .  .  .  Trailing: false";
"    47  .  .  .  }";
"    48  .  .  .  Block: """"";
"    49  .  .  .  Result: *ast.SExpr {";
"    50  .  .  .  .  Binding: ";
"    51  .  .  .  .  Op: Add16";
"    52  .  .  .  .  Type: ";
"    53  .  .  .  .  Args: []ast.Value (len = 2) {";
"    54  .  .  .  .  .  0: x";
"    55  .  .  .  .  .  1: *(obj @ 9)";
"    56  .  .  .  .  }";
"    57  .  .  .  .  Ellipsis: false";
"    58  .  .  .  .  Trailing: false";
"    59  .  .  .  }";
"    60  .  .  }";
"    61  .  }";
"    62  }"]%string).
Proof. vm_compute. reflexivity. Qed.

(** A node that is an argument of itself, beside nil pointers, in a rule without a result:
    the hypotheses are met. *)
Definition loop_node : hsexpr :=
  {| h_binding := []; h_op := HOpcode (str "Neg"); h_type := str "t"; h_auxint := None; h_aux := Some 2;
     h_args := {| sl_arr := 1; sl_off := 0; sl_len := 3; sl_cap := 3 |}; h_ellipsis := false; h_trailing := true |}.
Definition loop_heap : heap :=
  [CSExpr loop_node; CArr [WSExpr (Some 0); WSExpr None; WExpr (Some 2)]; CExpr (GIdent 7%N (str "c"));
   CRule {| h_match := WSExpr (Some 0); h_cond := Some 2; h_block := str "b"; h_result := WNil |}].
Example C63_hypotheses :
  closed (nth_error loop_heap) (fun a => In a [0; 2; 3]) /\ ok_node (nth_error loop_heap) (fun a => In a [0; 2; 3]) (HWord (WRule (Some 3))) /\
  h_Dump (fun _ => true) (fun _ => []) (nth_error loop_heap) 5 (HWord (WRule (Some 3))) = Ok (with_newlines [
"     0  *ast.Rule {";
"     1  .  Match: *ast.SExpr {";
"     2  .  .  Binding: ";
"     3  .  .  Op: Neg";
"     4  .  .  Type: t";
"     5  .  .  Aux: *ast.Expr {";
"     6  .  .  .  Expr: *ast.Ident {";
"     7  .  .  .  .  NamePos: 7";
"     8  .  .  .  .  Name: ""c""";
"     9  .  .  .  }";
"    10  .  .  }";
"    11  .  .  Args: []ast.Value (len = 3) {";
"    12  .  .  .  0: *(obj @ 1)";
"    13  .  .  .  1: nil";
"    14  .  .  .  2: *(obj @ 5)";
"    15  .  .  }";
"    16  .  .  Ellipsis: false";
"    17  .  .  Trailing: true";
"    18  .  }";
"    19  .  Condition: *(obj @ 5)";
"    20  .  Block: ""b""";
"    21  }"]%string).
Proof.
  assert (E : ok_expr (nth_error loop_heap) (fun a => In a [0; 2; 3]) (Some 2)) by (cbn; split; [tauto|eexists; split; [reflexivity|exact I]]).
  split; [|split; [|vm_compute; reflexivity]].
  - intros a c I G. cbn in I. destruct I as [<-|[<-|[<-|[]]]]; injection G as <-; cbn [ok_cell].
    + split; [exact I|]. split; [exact E|]. split; [exact I|]. exists [WSExpr (Some 0); WSExpr None; WExpr (Some 2)]. split; [split; [|right; exists [], []; split; reflexivity]; reflexivity|].
      constructor; [|constructor; [exact I|constructor; [exact E|constructor]]]. cbn. split; [tauto|eauto].
    + exact I.
    + split; [cbn; split; [tauto|eauto]|]. split; [exact E|exact I].
  - right. cbn. split; [tauto|eauto].
Qed.
(** And for [C63_without_sharing]: a file with the rule x => y. *)
Definition lone_heap : heap :=
  [CRule {| h_match := WVar (str "x"); h_cond := None; h_block := []; h_result := WVar (str "y") |};
   CArr [WRule (Some 0)]; CFile {| sl_arr := 1; sl_off := 0; sl_len := 1; sl_cap := 1 |}].
Example C63_without_sharing_example : exists f d,
  file_at (nth_error lone_heap) 2 f /\ plain_node (NFile f) /\ node_odoc (fun _ => true) (nth_error lone_heap) (HFile (Some 2)) d /\
  first_met (events d) /\ (forall a, ~ In (There a) (events d)) /\ events d = [Here 2; Here 0].
Proof.
  exists {| f_rules := [{| r_match := Var (str "x"); r_cond := None; r_block := []; r_result := Var (str "y") |}] |}.
  eexists. split; [|split; [|split; [|split; [|split]]]].
  - eexists _, [WRule (Some 0)]. split; [reflexivity|]. split; [split; [reflexivity|right; exists [], []; split; reflexivity]|]. constructor; [|constructor].
    exists 0. eexists. split; [reflexivity|]. split; [reflexivity|]. split; [constructor|]. split; [exact I|]. split; [reflexivity|constructor].
  - repeat constructor.
  - eapply (fl_some _ _ 2 _ [WRule (Some 0)]); [reflexivity|split; [reflexivity|right; exists [], []; split; reflexivity]|]. constructor; [|constructor].
    eapply (wo_rule _ _ 0); [reflexivity|apply fo_some; [discriminate|apply wo_var]|constructor|apply fo_some; [discriminate|apply wo_var]].
  - apply in_order_first. cbn. intuition discriminate.
  - cbn. intros a. intuition discriminate.
  - reflexivity.
Qed.
