(** What an expanded rule is made of: which parts of memory are the source rule's own and which are new. *)
From Verif Require Import Text GoAst Ast Heap SpecExpand SpecHeap SpecFresh.

Section Own.
  Variable g : nat -> option cell.   (* the cells after the pass, [nth_error h'] *)
  Variable old : nat.                (* where the new cells begin *)
  (** [copied v w w' cs]: the value [w], holding the tree [v], has become [w'], for which the cells [cs] have
      been made.  A value without alternatives is not copied at all; of one with alternatives, the S-expression
      and the array of its arguments are new, and its binding, its type, AuxInt and Aux are as they were:
      the last two are the same pointers. *)
  Inductive copied : value -> word -> word -> list nat -> Prop :=
  | kept v w : value_groups v = [] -> copied v w w []
  | renewed s p c ws q o args ws' cs :
      value_groups (SExp s) <> [] -> g p = Some (CSExpr c) -> slice_at g (h_args c) ws -> old <= q ->
      g q = Some (CSExpr {| h_binding := h_binding c; h_op := HOpcode o; h_type := h_type c; h_auxint := h_auxint c; h_aux := h_aux c;
                            h_args := args; h_ellipsis := h_ellipsis c; h_trailing := h_trailing c |}) ->
      (forall a, In a (slice_cells args) -> old <= a) -> slice_at g args ws' -> all_copied (s_args s) ws ws' cs ->
      copied (SExp s) (WSExpr (Some p)) (WSExpr (Some q)) (q :: slice_cells args ++ cs)
  with all_copied : list value -> list word -> list word -> list nat -> Prop :=
  | no_values : all_copied [] [] [] []
  | more_values v vs w ws w' ws' c cs : copied v w w' c -> all_copied vs ws ws' cs -> all_copied (v :: vs) (w :: ws) (w' :: ws') (c ++ cs).
  (** A rule made of the rule [w], which holds [r]: a new cell, with the same condition. *)
  Definition rule_copied (r : rule) (w w' : word) (cs : list nat) : Prop :=
    exists p c q m x ms xs, w = WRule (Some p) /\ g p = Some (CRule c) /\ w' = WRule (Some q) /\ old <= q /\
      g q = Some (CRule {| h_match := m; h_cond := h_cond c; h_block := h_block c; h_result := x |}) /\
      copied (r_match r) (h_match c) m ms /\ copied (r_result r) (h_result c) x xs /\ cs = q :: ms ++ xs.
  (** What has become of a rule: it is the same one, or there is a copy for each alternative. *)
  Definition rule_expanded (r : rule) (w : word) (ws : list word) (css : list (list nat)) : Prop :=
    rule_groups r = [] /\ ws = [w] /\ css = [[]] \/
    rule_groups r <> [] /\ List.length ws = arity (rule_groups r) /\ Forall2 (rule_copied r w) ws css.
  Inductive rules_expanded : list rule -> list word -> list (list word) -> list (list (list nat)) -> Prop :=
  | no_rules : rules_expanded [] [] [] []
  | more_rules r rs w ws x xs y ys : rule_expanded r w x y -> rules_expanded rs ws xs ys -> rules_expanded (r :: rs) (w :: ws) (x :: xs) (y :: ys).
End Own.
