(** Visitors that change the tree: what they are shown, and what they leave behind. *)
From Verif Require Import Text GoAst Ast Heap HeapVisit SpecHeap.
From Coq Require Import Arith.

(** What a node in memory stands for. *)
Inductive stands (g : nat -> option cell) : hnode -> node -> Prop :=
| st_file p F : file_at g p F -> stands g (HFile (Some p)) (NFile F)
| st_rule w r : rule_at g w r -> stands g (HWord w) (NRule r)
| st_value w v : value_at g w v -> stands g (HWord w) (node_of_value v)
| st_op o t : op_at g o t -> stands g (HOp o) (node_of_op t)
| st_part p : stands g (HPart p) (node_of_part p).

(** The attributes of an S-expression: all but its opcode and its arguments.  Of the
    auxiliary expressions, whether they are there. *)
Record attrs := { a_binding : text; a_type : text; a_auxint : bool; a_aux : bool; a_ellipsis : bool; a_trailing : bool }.
Definition there {A} (o : option A) : bool := match o with Some _ => true | None => false end.
Definition keep {A} (b : bool) (o : option A) : option A := if b then o else None.
Definition attrs_of (s : sexpr) : attrs :=
  {| a_binding := s_binding s; a_type := s_type s; a_auxint := there (s_auxint s); a_aux := there (s_aux s);
     a_ellipsis := s_ellipsis s; a_trailing := s_trailing s |}.
Definition h_attrs_of (c : hsexpr) : attrs :=
  {| a_binding := h_binding c; a_type := h_type c; a_auxint := there (h_auxint c); a_aux := there (h_aux c);
     a_ellipsis := h_ellipsis c; a_trailing := h_trailing c |}.

Section Edit.
  (** An edit of the attributes, which may drop auxiliary expressions. *)
  Variable e : attrs -> attrs.
  (** The struct, edited. *)
  Definition edit_struct (c : hsexpr) : hsexpr :=
    let a := e (h_attrs_of c) in
    {| h_binding := a_binding a; h_op := h_op c; h_type := a_type a; h_auxint := keep (a_auxint a) (h_auxint c);
       h_aux := keep (a_aux a) (h_aux c); h_args := h_args c; h_ellipsis := a_ellipsis a; h_trailing := a_trailing a |}.
  (** The tree, edited at each S-expression. *)
  Fixpoint edit_value (v : value) : value :=
    match v with
    | SExp s =>
        let a := e (attrs_of s) in
        SExp {| s_binding := a_binding a; s_op := s_op s; s_type := a_type a; s_auxint := keep (a_auxint a) (s_auxint s);
                s_aux := keep (a_aux a) (s_aux s); s_args := map edit_value (s_args s);
                s_ellipsis := a_ellipsis a; s_trailing := a_trailing a |}
    | _ => v
    end.
  Definition edit_rule (r : rule) : rule :=
    {| r_match := edit_value (r_match r); r_cond := r_cond r; r_block := r_block r; r_result := edit_value (r_result r) |}.
  Definition edit_file (F : file) : file := {| f_rules := map edit_rule (f_rules F) |}.

  (** The callback that edits each S-expression in place, counts them, and says yes:
      [func(n ast.Node) bool { if s, ok := n.( *ast.SExpr); ok { s.Type = ...; k++ }; return true }]. *)
  Definition editing (n : hnode) (k : nat) : M (bool * nat) :=
    match n with
    | HWord (WSExpr (Some p)) =>
        do c <- get_sexpr p; do _ <- store p (CSExpr (edit_struct c)); ret (true, Datatypes.S k)
    | _ => ret (true, k)
    end.
  (** Memory [h'] is [h], with each S-expression edited as many times as its address is in [l]. *)
  Definition edited (l : list nat) (h h' : heap) : Prop :=
    forall p, nth_error h' p =
      match nth_error h p with
      | Some (CSExpr c) => Some (CSExpr (Nat.iter (count_occ Nat.eq_dec l p) edit_struct c))
      | o => o
      end.
End Edit.

(** How many S-expressions a tree has. *)
Fixpoint sexprs_of_value (v : value) : nat :=
  match v with SExp s => S (list_sum (map sexprs_of_value (s_args s))) | _ => 0 end.
Definition sexprs_of_rule (r : rule) : nat := sexprs_of_value (r_match r) + sexprs_of_value (r_result r).
Definition sexprs_of_file (F : file) : nat := list_sum (map sexprs_of_rule (f_rules F)).

(** The addresses of the S-expressions of a value, parents before their arguments, left to
    right; an address that is met twice is there twice. *)
Section Met.
  Variable g : nat -> option cell.
  Inductive met : word -> list nat -> Prop :=
  | met_sexpr p c ws ls : g p = Some (CSExpr c) -> slice_at g (h_args c) ws -> Forall2 met ws ls -> met (WSExpr (Some p)) (p :: List.concat ls)
  | met_expr p : met (WExpr p) []
  | met_var x : met (WVar x) [].
  Definition met_rule (w : word) (l : list nat) : Prop :=
    exists p c lm lr, w = WRule (Some p) /\ g p = Some (CRule c) /\ met (h_match c) lm /\ met (h_result c) lr /\ l = lm ++ lr.
  Definition met_file (f : nat) (l : list nat) : Prop :=
    exists sl ws ls, g f = Some (CFile sl) /\ slice_at g sl ws /\ Forall2 met_rule ws ls /\ l = List.concat ls.
End Met.

(** A traversal of memory that may change under way.  [Tour v n s h calls s' h']: from node
    [n] with visitor [v], in state [s] and memory [h], the Visit calls are [calls], in that
    order, each with its receiver, and leave [s'] and [h'].  Visit comes first; then the
    children are taken from memory as it is when their turn comes: a struct's field when the
    walk gets to it, a slice's elements one by one, as many as the slice had at first. *)
Section Tours.
  Context {V S : Type}.
  Variable visit : V -> hnode -> S -> M (option V * S).
  Definition leaf (n : hnode) : Prop :=
    match n with
    | HWord (WExpr _) | HWord (WVar _) | HOp (HOpcode _) | HPart (PCode _) | HPart (PAlt _) => True
    | _ => False
    end.
  (** Element [j] of a slice. *)
  Definition element (h : heap) (xs : slice) (j : nat) (w : word) : Prop :=
    exists l, nth_error h (sl_arr xs) = Some (CArr l) /\ nth_error l (sl_off xs + j) = Some w.
  Inductive Tour : V -> hnode -> S -> heap -> list (V * hnode) -> S -> heap -> Prop :=
  | tour_cut v n s h s' h' : run (visit v n s) h = (h', Ok (None, s')) -> Tour v n s h [(v, n)] s' h'
  | tour_leaf v v' n s h s' h' : run (visit v n s) h = (h', Ok (Some v', s')) -> leaf n -> Tour v n s h [(v, n)] s' h'
  | tour_file v v' p s h s1 h1 rules calls s' h' :
      run (visit v (HFile (Some p)) s) h = (h1, Ok (Some v', s1)) ->
      nth_error h1 p = Some (CFile rules) -> Each true v' rules (seq 0 (sl_len rules)) s1 h1 calls s' h' ->
      Tour v (HFile (Some p)) s h ((v, HFile (Some p)) :: calls) s' h'
  | tour_rule v v' p s h s1 h1 c1 calls1 s2 h2 c2 calls2 s' h' :
      run (visit v (HWord (WRule (Some p))) s) h = (h1, Ok (Some v', s1)) ->
      nth_error h1 p = Some (CRule c1) -> is_rule (h_match c1) = false -> Tour v' (HWord (h_match c1)) s1 h1 calls1 s2 h2 ->
      nth_error h2 p = Some (CRule c2) -> is_rule (h_result c2) = false -> Tour v' (HWord (h_result c2)) s2 h2 calls2 s' h' ->
      Tour v (HWord (WRule (Some p))) s h ((v, HWord (WRule (Some p))) :: calls1 ++ calls2) s' h'
  | tour_sexpr v v' p s h s1 h1 c1 calls1 s2 h2 c2 calls2 s' h' :
      run (visit v (HWord (WSExpr (Some p))) s) h = (h1, Ok (Some v', s1)) ->
      nth_error h1 p = Some (CSExpr c1) -> Tour v' (HOp (h_op c1)) s1 h1 calls1 s2 h2 ->
      nth_error h2 p = Some (CSExpr c2) -> Each false v' (h_args c2) (seq 0 (sl_len (h_args c2))) s2 h2 calls2 s' h' ->
      Tour v (HWord (WSExpr (Some p))) s h ((v, HWord (WSExpr (Some p))) :: calls1 ++ calls2) s' h'
  | tour_parts v v' a s h s1 h1 ps calls s' h' :
      run (visit v (HOp (HParts a)) s) h = (h1, Ok (Some v', s1)) ->
      nth_error h1 a = Some (CParts ps) -> Parts v' a (seq 0 (List.length ps)) s1 h1 calls s' h' ->
      Tour v (HOp (HParts a)) s h ((v, HOp (HParts a)) :: calls) s' h'
  (** The elements of a slice of rules, or of values, at these indices. *)
  with Each : bool -> V -> slice -> list nat -> S -> heap -> list (V * hnode) -> S -> heap -> Prop :=
  | each_nil r v xs s h : Each r v xs [] s h [] s h
  | each_cons r v xs j js s h w calls1 s1 h1 calls2 s' h' :
      element h xs j w -> is_rule w = r -> Tour v (HWord w) s h calls1 s1 h1 -> Each r v xs js s1 h1 calls2 s' h' ->
      Each r v xs (j :: js) s h (calls1 ++ calls2) s' h'
  (** The parts of an opcode. *)
  with Parts : V -> nat -> list nat -> S -> heap -> list (V * hnode) -> S -> heap -> Prop :=
  | parts_nil v a s h : Parts v a [] s h [] s h
  | parts_cons v a j js s h ps p calls1 s1 h1 calls2 s' h' :
      nth_error h a = Some (CParts ps) -> nth_error ps j = Some p -> Tour v (HPart p) s h calls1 s1 h1 -> Parts v a js s1 h1 calls2 s' h' ->
      Parts v a (j :: js) s h (calls1 ++ calls2) s' h'.
End Tours.
(** A visitor that behaves like [visit] and logs every call. *)
Definition h_logging {V S} (visit : V -> hnode -> S -> M (option V * S)) (v : V) (n : hnode) (st : S * list (V * hnode)) : M (option V * (S * list (V * hnode))) :=
  do r <- visit v n (fst st); ret (fst r, (snd r, snd st ++ [(v, n)])).
