(** What a dump looks like when the same object is met more than once: the specification
    of C63. *)
From Verif Require Import Text GoAst Ast Utf8 Quote Parse SpecSyntax SpecDump Heap SpecHeap HeapDump.
From Coq Require Import NArith.
Open Scope nat_scope.
Open Scope list_scope.

(** A dump as a document that knows its objects: a scalar, the braces of an object (or of
    a slice or a go/ast node, which have no address here), or a reference to an object. *)
Inductive odoc :=
| OLeaf (t : text)
| OBlock (obj : option nat) (head : text) (items : list (text * odoc))
| ORef (obj : nat).

(** With the references spelled out: [at_line] is the line of an object. *)
Fixpoint spelled (at_line : nat -> nat) (d : odoc) : doc :=
  match d with
  | OLeaf t => Leaf t
  | OBlock _ head items => Block head (map (fun item => (fst item, spelled at_line (snd item))) items)
  | ORef a => Leaf (str "*(obj @ " ++ dec (at_line a) ++ str ")")
  end.
(** The object whose braces open on each of its lines, if one's do. *)
Fixpoint opened (d : odoc) : list (option nat) :=
  match d with
  | OLeaf t => map (fun _ => None) (split_nl t)
  | OBlock o head [] => [o]
  | OBlock o head items => o :: flat_map (fun item => opened (snd item)) items ++ [None]
  | ORef _ => [None]
  end.
(** The objects met, in reading order: here are its braces, or a reference. *)
Inductive event := Here (a : nat) | There (a : nat).
Fixpoint events (d : odoc) : list event :=
  match d with
  | OLeaf _ => []
  | OBlock o _ items => match o with Some a => [Here a] | None => [] end ++ flat_map (fun item => events (snd item)) items
  | ORef a => [There a]
  end.
(** An object is shown in full where it is met first, and only there. *)
Definition first_met (es : list event) : Prop :=
  (forall before a after, es = before ++ Here a :: after -> ~ In (Here a) before /\ ~ In (There a) before) /\
  (forall before a after, es = before ++ There a :: after -> In (Here a) before).

(** ** The documents of what is at a pointer *)
Fixpoint plain_doc (d : doc) : odoc :=
  match d with
  | Leaf t => OLeaf t
  | Block head items => OBlock None head (map (fun item => (fst item, plain_doc (snd item))) items)
  end.
Definition ostruct (p : nat) (ty : string) (fields : list (string * option odoc)) : odoc :=
  OBlock (Some p) (str "*" ++ str ty)
    (flat_map (fun f => match snd f with Some d => [(str (fst f), d)] | None => [] end) fields).
Fixpoint oindexed (i : nat) (l : list odoc) : list (text * odoc) :=
  match l with [] => [] | d :: l => (dec i, d) :: oindexed (S i) l end.
Definition oslice (ty : string) (l : list odoc) : option odoc :=
  match l with
  | [] => None
  | _ => Some (OBlock None (str ty ++ str " (len = " ++ dec (List.length l) ++ str ")") (oindexed 0 l))
  end.
Definition scalar (d : option doc) : option odoc := option_map plain_doc d.

Section Describes.
  Variable wide_print : N -> bool.
  Variable g : nat -> option cell.
  (** A pointer to an ast.Expr that is not nil. *)
  Inductive expr_odoc (p : nat) : odoc -> Prop :=
  | eo_again : expr_odoc p (ORef p)
  | eo_here e : g p = Some (CExpr e) ->
      expr_odoc p (ostruct p "ast.Expr" [("Expr"%string, match e with GNil => None | _ => scalar (Some (gexpr_doc wide_print e)) end)]).
  (** A field with such a pointer, which is left out if nil. *)
  Inductive ptr_odoc : ptr -> option odoc -> Prop :=
  | po_nil : ptr_odoc None None
  | po_some p d : expr_odoc p d -> ptr_odoc (Some p) (Some d).
  Inductive op_odoc : hop -> option odoc -> Prop :=
  | oo_code c : op_odoc (HOpcode c) (Some (OLeaf c))
  | oo_parts a ps : g a = Some (CParts ps) -> op_odoc (HParts a) (scalar (Some (op_doc (OpcodeParts ps))))
  | oo_nil : op_odoc HNilOp None.
  (** An interface field: left out if it is nil, but not if it has a nil pointer in it. *)
  Inductive field_odoc (elem : word -> odoc -> Prop) : word -> option odoc -> Prop :=
  | fo_nil : field_odoc elem WNil None
  | fo_some w d : w <> WNil -> elem w d -> field_odoc elem w (Some d).
  Inductive word_odoc : word -> odoc -> Prop :=
  | wo_nil w : In w [WNil; WSExpr None; WExpr None; WRule None] -> word_odoc w (OLeaf (str "nil"))
  | wo_var x : word_odoc (WVar x) (OLeaf x)
  | wo_expr p d : expr_odoc p d -> word_odoc (WExpr (Some p)) d
  | wo_sexpr_again p : word_odoc (WSExpr (Some p)) (ORef p)
  | wo_sexpr p c o ai a ws args :
      g p = Some (CSExpr c) -> op_odoc (h_op c) o -> ptr_odoc (h_auxint c) ai -> ptr_odoc (h_aux c) a ->
      slice_at g (h_args c) ws -> Forall2 word_odoc ws args ->
      word_odoc (WSExpr (Some p)) (ostruct p "ast.SExpr" [("Binding", Some (OLeaf (h_binding c))); ("Op", o);
        ("Type", Some (OLeaf (h_type c))); ("AuxInt", ai); ("Aux", a); ("Args", oslice "[]ast.Value" args);
        ("Ellipsis", scalar (bool_doc (h_ellipsis c))); ("Trailing", scalar (bool_doc (h_trailing c)))]%string)
  | wo_rule_again p : word_odoc (WRule (Some p)) (ORef p)
  | wo_rule p c m co r :
      g p = Some (CRule c) -> field_odoc word_odoc (h_match c) m -> ptr_odoc (h_cond c) co -> field_odoc word_odoc (h_result c) r ->
      word_odoc (WRule (Some p)) (ostruct p "ast.Rule" [("Match", m); ("Condition", co);
        ("Block", scalar (string_doc wide_print (h_block c))); ("Result", r)]%string).
  Inductive file_odoc : ptr -> odoc -> Prop :=
  | fl_nil : file_odoc None (OLeaf (str "nil"))
  | fl_some p sl ws rules : g p = Some (CFile sl) -> slice_at g sl ws -> Forall2 word_odoc ws rules ->
      file_odoc (Some p) (ostruct p "ast.File" [("Rules"%string, oslice "[]*ast.Rule" rules)]).
  Definition node_odoc (n : hnode) : odoc -> Prop := match n with HFile p => file_odoc p | HWord w => word_odoc w end.
End Describes.

(** ** What can be dumped: everything that can be reached is of the type its pointer says,
    and the Go expressions are of the kinds that parsing accepts. *)
Section Reachable.
  Variable g : nat -> option cell.
  Variable reached : nat -> Prop.
  Definition ok_expr (p : ptr) : Prop :=
    match p with None => True | Some a => reached a /\ exists e, g a = Some (CExpr e) /\ supported e end.
  Definition ok_value (w : word) : Prop :=
    match w with
    | WSExpr (Some a) => reached a /\ exists c, g a = Some (CSExpr c)
    | WExpr p => ok_expr p
    | WRule _ => False
    | _ => True
    end.
  Definition ok_rule (w : word) : Prop :=
    match w with
    | WRule (Some a) => reached a /\ exists c, g a = Some (CRule c)
    | WRule None => True
    | _ => False
    end.
  Definition ok_cell (c : cell) : Prop :=
    match c with
    | CSExpr s => ok_expr (h_auxint s) /\ ok_expr (h_aux s) /\
        match h_op s with HParts a => exists ps, g a = Some (CParts ps) | _ => True end /\
        exists ws, slice_at g (h_args s) ws /\ Forall ok_value ws
    | CRule r => ok_value (h_match r) /\ ok_expr (h_cond r) /\ ok_value (h_result r)
    | CFile sl => exists ws, slice_at g sl ws /\ Forall ok_rule ws
    | _ => True
    end.
  Definition ok_node (n : hnode) : Prop :=
    match n with
    | HFile None => True
    | HFile (Some a) => reached a /\ exists sl, g a = Some (CFile sl)
    | HWord w => ok_value w \/ ok_rule w
    end.
  (** Nothing else is reached from what is reached. *)
  Definition closed : Prop := forall a c, reached a -> g a = Some c -> ok_cell c.
End Reachable.
