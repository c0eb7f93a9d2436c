(** Specification of alternative expansion.  Uses only the data types of Ast.v. *)
From Verif Require Import Text GoAst Ast.
From Coq Require Import Arith.

(** The sizes of the alternative groups (a|b|...) of an opcode, a value, a rule. *)
Definition part_groups (p : oppart) : list nat :=
  match p with PAlt alts => [List.length alts] | _ => [] end.
Definition op_groups (o : op) : list nat :=
  match o with OpcodeParts ps => flat_map part_groups ps | _ => [] end.
Fixpoint value_groups (v : value) : list nat :=
  match v with
  | SExp s => op_groups (s_op s) ++ flat_map value_groups (s_args s)
  | _ => []
  end.
Definition rule_groups (r : rule) : list nat := value_groups (r_match r) ++ value_groups (r_result r).

(** Instance [i]: the [i]-th member of every group. *)
Definition part_inst (i : nat) (p : oppart) : text :=
  match p with PCode c => c | PAlt alts => nth i alts [] | PNilPart => [] end.
Definition op_inst (i : nat) (o : op) : op :=
  match o with OpcodeParts ps => Opcode (List.concat (map (part_inst i) ps)) | _ => o end.
Fixpoint value_inst (i : nat) (v : value) : value :=
  match v with
  | SExp s => SExp {| s_binding := s_binding s; s_op := op_inst i (s_op s); s_type := s_type s;
                      s_auxint := s_auxint s; s_aux := s_aux s;
                      s_args := map (value_inst i) (s_args s);
                      s_ellipsis := s_ellipsis s; s_trailing := s_trailing s |}
  | _ => v
  end.
Definition rule_inst (i : nat) (r : rule) : rule :=
  {| r_match := value_inst i (r_match r); r_cond := r_cond r; r_block := r_block r;
     r_result := value_inst i (r_result r) |}.

(** How many instances: the common size, or one when there is no group. *)
Definition arity (groups : list nat) : nat := match groups with [] => 1 | n :: _ => n end.
Definition instances (r : rule) : list rule :=
  map (fun i => rule_inst i r) (seq 0 (arity (rule_groups r))).

(** All groups have the same size. *)
Definition uniform (groups : list nat) : Prop := forall m n, In m groups -> In n groups -> m = n.

(** All values of a list satisfy [P]. *)
Definition all_values (P : value -> Prop) : list value -> Prop :=
  fix all l := match l with [] => True | a :: l' => P a /\ all l' end.

(** Proper trees: nothing is nil, a multi-part opcode has at least one group, and
    every group at least two members.  This is what the parser builds. *)
Definition proper_part (p : oppart) : Prop :=
  match p with PCode _ => True | PAlt alts => 2 <= List.length alts | PNilPart => False end.
Definition proper_op (o : op) : Prop :=
  match o with
  | Opcode _ => True
  | OpcodeParts ps => Forall proper_part ps /\ exists alts, In (PAlt alts) ps
  | NilOp => False
  end.
Fixpoint proper_value (v : value) : Prop :=
  match v with
  | SExp s => proper_op (s_op s) /\ all_values (fun a => proper_value a) (s_args s)
  | EVal _ | Var _ => True
  | NilValue => False
  end.
Definition proper_rule (r : rule) : Prop := proper_value (r_match r) /\ proper_value (r_result r).

(** Fully expanded: every opcode is a plain one. *)
Definition plain_op (o : op) : Prop := match o with Opcode _ => True | _ => False end.
Fixpoint plain_value (v : value) : Prop :=
  match v with
  | SExp s => plain_op (s_op s) /\ all_values (fun a => plain_value a) (s_args s)
  | EVal _ | Var _ => True
  | NilValue => False
  end.
Definition plain_rule (r : rule) : Prop := plain_value (r_match r) /\ plain_value (r_result r).

(** Equal up to opcodes. *)
Inductive same_shape : value -> value -> Prop :=
| ss_sexpr s s' :
    s_binding s = s_binding s' -> s_type s = s_type s' -> s_auxint s = s_auxint s' ->
    s_aux s = s_aux s' -> s_ellipsis s = s_ellipsis s' -> s_trailing s = s_trailing s' ->
    Forall2 same_shape (s_args s) (s_args s') -> same_shape (SExp s) (SExp s')
| ss_expr e : same_shape (EVal e) (EVal e)
| ss_var x : same_shape (Var x) (Var x)
| ss_nil : same_shape NilValue NilValue.

(** The message of a clash between groups of sizes [m] and [n]. *)
Definition clash (m n : nat) : text :=
  str "incompatible alternative counts " ++ dec m ++ str " and " ++ dec n.

(** The opcodes of a value and of a rule. *)
Fixpoint value_ops (v : value) : list op :=
  match v with SExp s => s_op s :: flat_map value_ops (s_args s) | _ => [] end.

Definition rule_ops (r : rule) : list op := value_ops (r_match r) ++ value_ops (r_result r).

(** Panics need a one-member group beside a larger one. *)
Definition lopsided (o : op) : Prop :=
  exists ps x alts, o = OpcodeParts ps /\ In (PAlt [x]) ps /\ In (PAlt alts) ps /\ 2 <= List.length alts.
