(** Specification vocabulary for rule trees: children, preorder, occurrence.
    Independent of the traversal code (it mentions only the data types of Ast.v). *)
From Verif Require Import Text GoAst Ast.

(** The direct children of a node, in source order, as the documentation of
    ast.Walk has them for the types it lists (ast/walk.go:14-49). *)
Definition children (n : node) : list node :=
  match n with
  | NFile f => map NRule (f_rules f)
  | NRule r => [node_of_value (r_match r); node_of_value (r_result r)]
  | NSExpr s => node_of_op (s_op s) :: map node_of_value (s_args s)
  | NParts ps => map node_of_part ps
  | NExpr _ | NVar _ | NOpcode _ | NAlt _ | NNil => []
  end.

(** Preorder: a node, then everything below it, left to right. *)
Inductive preorder : node -> list node -> Prop :=
| pre_node n l : preorders (children n) l -> preorder n (n :: l)
with preorders : list node -> list node -> Prop :=
| pre_nil : preorders [] []
| pre_cons n ns l ls : preorder n l -> preorders ns ls -> preorders (n :: ns) (l ++ ls).

(** [Walks visit v n s calls s']: a depth-first traversal from [n] with visitor
    [v], starting in state [s], makes the Visit calls [calls] in that order (each
    with its receiver) and ends in state [s'].  Children are visited with the
    visitor that the call on their parent returned; a nil visitor ([None]) cuts
    off the children. *)
Section Walks.
  Context {V S : Type}.
  Variable visit : V -> node -> S -> option V * S.
  Inductive Walks : V -> node -> S -> list (V * node) -> S -> Prop :=
  | walks_cut v n s s' :
      visit v n s = (None, s') -> Walks v n s [(v, n)] s'
  | walks_down v v' n s s' calls s'' :
      visit v n s = (Some v', s') -> n <> NNil ->
      WalksAll v' (children n) s' calls s'' -> Walks v n s ((v, n) :: calls) s''
  with WalksAll : V -> list node -> S -> list (V * node) -> S -> Prop :=
  | walks_nil v s : WalksAll v [] s [] s
  | walks_cons v n ns s calls1 s' calls2 s'' :
      Walks v n s calls1 s' -> WalksAll v ns s' calls2 s'' ->
      WalksAll v (n :: ns) s (calls1 ++ calls2) s''.
End Walks.

(** [n] is [m] or occurs somewhere below it. *)
Inductive occurs : node -> node -> Prop :=
| occ_here n : occurs n n
| occ_below n m c : In c (children m) -> occurs n c -> occurs n m.

(** No nil interface anywhere below (what the parser and any sensible client
    produce). *)
Definition nil_free (n : node) : Prop := ~ occurs NNil n.

(** The elements of [l] up to and including the first that satisfies [p] (all of
    [l] if there is none). *)
Fixpoint upto (p : node -> bool) (l : list node) : list node :=
  match l with
  | [] => []
  | n :: l' => if p n then [n] else n :: upto p l'
  end.

(** A visitor that behaves like [visit] and logs every call. *)
Definition logging {V S} (visit : V -> node -> S -> option V * S)
  (v : V) (n : node) (st : S * list (V * node)) : option V * (S * list (V * node)) :=
  let '(o, s') := visit v n (fst st) in (o, (s', snd st ++ [(v, n)])).

(** With a pure predicate that logs its calls. *)
Definition log_pred (pred : node -> bool) (n : node) (log : list node) : bool * list node :=
  (pred n, log ++ [n]).


(** [visible f n l]: [l] is the preorder list of the nodes below [n] all of whose
    proper ancestors satisfy [f] (and no nil is descended into). *)
Inductive visible (f : node -> bool) : node -> list node -> Prop :=
| vis_cut n : f n = false -> visible f n [n]
| vis_down n l : f n = true -> n <> NNil -> visibles f (children n) l -> visible f n (n :: l)
with visibles (f : node -> bool) : list node -> list node -> Prop :=
| vis_nil : visibles f [] []
| vis_cons n ns l ls : visible f n l -> visibles f ns ls -> visibles f (n :: ns) (l ++ ls).

(** For a callback [f] that may read and write a state.
    [shown n l]: [l] lists the nodes shown to the callback on a traversal from [n]
    together with its answers: below a node answered [false] nothing is shown,
    below a node answered [true] its children are, in order. *)
Inductive shown : node -> list (node * bool) -> Prop :=
| shown_cut n : shown n [(n, false)]
| shown_down n l : n <> NNil -> showns (children n) l -> shown n ((n, true) :: l)
with showns : list node -> list (node * bool) -> Prop :=
| shown_nil : showns [] []
| shown_cons n ns l ls : shown n l -> showns ns ls -> showns (n :: ns) (l ++ ls).

(** The callback, called in turn on the nodes of [l], gives the answers of [l]
    and takes the state from [s] to [s']. *)
Fixpoint answers {S} (f : node -> S -> bool * S) (l : list (node * bool)) (s s' : S) : Prop :=
  match l with
  | [] => s' = s
  | (n, b) :: l => exists s1, f n s = (b, s1) /\ answers f l s1 s'
  end.

(** The predicate, called in turn on the nodes of [l] until it says yes. *)
Fixpoint first_hit {S} (pred : node -> S -> bool * S) (l : list node) (s : S) : bool * S :=
  match l with
  | [] => (false, s)
  | n :: l => let '(b, s') := pred n s in if b then (true, s') else first_hit pred l s'
  end.
