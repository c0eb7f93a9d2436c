(** Property C30: ExpandAlternates on a heap of pointers and slices. *)
From Verif Require Import Text GoAst Ast Expand Heap SpecHeap HeapFacts.
From Coq Require Import Arith.

(** *** C30: ExpandAlternates writes the file's rule slice and nothing else

    [spare] is how much append over-allocates, [fuel] the depth of the stack; the
    claims hold for all of them, for every heap (cyclic or ill-typed ones too), and
    whatever the outcome. *)

(** No cell that existed before is written, but for the file itself, and that only on
    success; the file then holds a new slice header. *)
Theorem C30_only_the_rule_slice_is_replaced :
  forall spare fuel f (h h' : heap) r,
    h_ExpandAlternates spare fuel f h = (h', r) ->
    (forall p c, nth_error h p = Some c -> f <> Some p -> nth_error h' p = Some c) /\
    ((forall u, r <> Ok u) -> forall p c, nth_error h p = Some c -> nth_error h' p = Some c) /\
    (forall p, f = Some p -> (exists u, r = Ok u) -> exists sl sl', nth_error h p = Some (CFile sl) /\ nth_error h' p = Some (CFile sl')).
Proof.
  intros spare fuel f h h' r E. destruct (expand_frame _ _ _ _ _ _ E) as [A B]. split; [|split].
  - intros p c Hp N. apply A; auto.
  - intros N p c Hp. apply A; auto.
  - exact B.
Qed.
Print Assumptions C30_only_the_rule_slice_is_replaced.

(** So every value and rule that could be reached before, shared or not, is the same
    tree after, and so is every other file, even one whose rule slice lies in the
    same array. *)
Theorem C30_reachable_trees_unchanged :
  forall spare fuel f (h h' : heap) r,
    h_ExpandAlternates spare fuel f h = (h', r) ->
    (forall w v, value_at (nth_error h) w v -> value_at (nth_error h') w v) /\
    (forall w x, rule_at (nth_error h) w x -> rule_at (nth_error h') w x) /\
    (forall p F, f <> Some p -> file_at (nth_error h) p F -> file_at (nth_error h') p F).
Proof.
  intros spare fuel f h h' r E. pose proof (expand_keeps _ _ _ _ _ _ E) as S. split; [|split].
  - intros w v V. exact (value_at_mono _ _ S _ _ (value_at_nofile _ _ _ V)).
  - intros w x V. exact (rule_at_mono _ _ S _ _ (rule_at_nofile _ _ _ V)).
  - intros p F N (sl & ws & G & Sl & Fw). exists sl, ws. split; [apply (expand_frame _ _ _ _ _ _ E); auto|].
    split; [exact (slice_at_mono _ _ S _ _ (slice_at_nofile _ _ _ Sl))|exact (rules_mono _ _ S _ _ (rules_nofile _ _ _ Fw))].
Qed.
Print Assumptions C30_reachable_trees_unchanged.

(** And what the file holds afterwards is what the tree model of Expand.v says, however
    the heap is shared: C21-C29 are about the program with pointers too. *)
Theorem C30_sharing_does_not_change_the_outcome :
  forall spare fuel f (h : heap) F,
    file_at (nth_error h) f F -> file_height F <= fuel ->
    match ExpandAlternates F with
    | Ok (F', None) => exists h', h_ExpandAlternates spare fuel (Some f) h = (h', Ok tt) /\ file_at (nth_error h') f F'
    | Ok (F', Some e) => exists h', h_ExpandAlternates spare fuel (Some f) h = (h', Err e) /\ file_at (nth_error h') f F'
    | Err e => False
    | Panic m => exists h', h_ExpandAlternates spare fuel (Some f) h = (h', Panic m) /\ file_at (nth_error h') f F
    end.
Proof. exact expand_ok. Qed.
Print Assumptions C30_sharing_does_not_change_the_outcome.

(** The hypotheses are met: two files with slices of one array, the first a prefix of
    the second with spare capacity; both sides of the rule share a node.
    (Add(8|16) x (Neg x)) => (Add(8|16) x (Neg x)), twice in the second file. *)
Definition ex_node : hsexpr :=
  {| h_binding := []; h_op := HOpcode (str "Neg"); h_type := []; h_auxint := None; h_aux := None;
     h_args := {| sl_arr := 2; sl_off := 1; sl_len := 1; sl_cap := 1 |}; h_ellipsis := false; h_trailing := false |}.
Definition ex_top : hsexpr :=
  {| h_binding := []; h_op := HParts 4; h_type := []; h_auxint := None; h_aux := None;
     h_args := {| sl_arr := 3; sl_off := 0; sl_len := 2; sl_cap := 2 |}; h_ellipsis := false; h_trailing := false |}.
Definition ex_rule : hrule := {| h_match := WSExpr (Some 1); h_cond := None; h_block := []; h_result := WSExpr (Some 1) |}.
Definition ex_heap : heap :=
  [CSExpr ex_node; CSExpr ex_top; CArr [WNil; WVar (str "x")]; CArr [WVar (str "x"); WSExpr (Some 0)];
   CParts [PCode (str "Add"); PAlt [str "8"; str "16"]]; CRule ex_rule; CArr [WRule (Some 5); WRule (Some 5)];
   CFile {| sl_arr := 6; sl_off := 0; sl_len := 1; sl_cap := 2 |}; CFile {| sl_arr := 6; sl_off := 0; sl_len := 2; sl_cap := 2 |}].
Definition ex_value : value :=
  SExp {| s_binding := []; s_op := OpcodeParts [PCode (str "Add"); PAlt [str "8"; str "16"]]; s_type := []; s_auxint := None; s_aux := None;
    s_args := [Var (str "x"); SExp {| s_binding := []; s_op := Opcode (str "Neg"); s_type := []; s_auxint := None; s_aux := None;
      s_args := [Var (str "x")]; s_ellipsis := false; s_trailing := false |}]; s_ellipsis := false; s_trailing := false |}.
Definition ex_tree : rule := {| r_match := ex_value; r_cond := None; r_block := []; r_result := ex_value |}.
Example C30_nonempty :
  file_at (nth_error ex_heap) 7 {| f_rules := [ex_tree] |} /\ file_at (nth_error ex_heap) 8 {| f_rules := [ex_tree; ex_tree] |} /\
  (exists F', ExpandAlternates {| f_rules := [ex_tree] |} = Ok (F', None) /\ List.length (f_rules F') = 2) /\
  exists h', h_ExpandAlternates (fun _ _ => 3) 9 (Some 7) ex_heap = (h', Ok tt) /\ nth_error h' 7 <> nth_error ex_heap 7 /\
    file_at (nth_error h') 8 {| f_rules := [ex_tree; ex_tree] |}.
Proof.
  assert (V : value_at (nth_error ex_heap) (WSExpr (Some 1)) ex_value).
  { eapply (at_sexpr _ 1 ex_top _ [WVar (str "x"); WSExpr (Some 0)]); cbn; try reflexivity; try exact I.
    - split; [reflexivity|]. right. exists [], []. split; reflexivity.
    - constructor; [constructor|]. constructor; [|constructor].
      eapply (at_sexpr _ 0 ex_node _ [WVar (str "x")]); cbn; try reflexivity; try exact I.
      + split; [reflexivity|]. right. exists [WNil], []. split; reflexivity.
      + constructor; [constructor|constructor]. }
  assert (R : rule_at (nth_error ex_heap) (WRule (Some 5)) ex_tree) by (exists 5, ex_rule; cbn; auto 10).
  assert (F8 : file_at (nth_error ex_heap) 8 {| f_rules := [ex_tree; ex_tree] |}).
  { eexists _, [WRule (Some 5); WRule (Some 5)]. split; [reflexivity|]. split; [|repeat constructor; exact R]. split; [reflexivity|]. right. exists [], []. split; reflexivity. }
  split; [|split; [exact F8|split]].
  - eexists _, [WRule (Some 5)]. split; [reflexivity|]. split; [|constructor; [exact R|constructor]]. split; [reflexivity|]. right. exists [], [WRule (Some 5)]. split; reflexivity.
  - eexists. split; [vm_compute; reflexivity|reflexivity].
  - destruct (h_ExpandAlternates (fun _ _ => 3) 9 (Some 7) ex_heap) as [h' r] eqn:E. exists h'.
    pose proof (proj2 (proj2 (C30_reachable_trees_unchanged _ _ _ _ _ _ E)) 8 _ ltac:(discriminate) F8) as K. vm_compute in E. inversion E; subst. split; [reflexivity|]. split; [discriminate|exact K].
Qed.
