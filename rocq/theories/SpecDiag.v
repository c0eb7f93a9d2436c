(** Specification of the messages of a failed expansion, for every tree (also
    trees no parser builds).  Uses only the data types of Ast.v and the group
    sizes of SpecExpand.v; the messages are literals. *)
From Verif Require Import Text GoAst Ast SpecExpand.
From Coq Require Import Arith.

Definition msg_nil : text := str "assertion failure: unexpected type <nil>".
Definition msg_empty : text := str "assertion failure: empty opcode parts".
Definition msg_single : text :=
  str "assertion failure: multi-part opcode should represent multiple alternatives".
Definition msg_counts : text := str "assertion failure: expect positive counts".
Definition msg_clash (m n : nat) : text :=
  str "incompatible alternative counts " ++ dec m ++ str " and " ++ dec n.

(** The only run-time panic. *)
Definition msg_panic : text := str "runtime error: index out of range [1] with length 1".

(** What is wrong with one opcode, and the message that says so. *)
Inductive bad_op : op -> text -> Prop :=
| bad_nil : bad_op NilOp msg_nil
| bad_empty : bad_op (OpcodeParts []) msg_empty
| bad_part ps : In PNilPart ps -> bad_op (OpcodeParts ps) msg_nil
| bad_group ps : In (PAlt []) ps -> bad_op (OpcodeParts ps) msg_counts
| bad_single ps : ps <> [] -> (forall alts, In (PAlt alts) ps -> List.length alts = 1) ->
    bad_op (OpcodeParts ps) msg_single.

(** A value is nil, or has a nil argument somewhere. *)
Inductive nil_in : value -> Prop :=
| ni_here : nil_in NilValue
| ni_arg s a : In a (s_args s) -> nil_in a -> nil_in (SExp s).

(** Two sizes that follow each other in reading order among the groups with
    several members, and that differ. *)
Definition clashing (groups : list nat) (m n : nat) : Prop :=
  m <> n /\ exists before after, filter (fun k => 1 <? k) groups = before ++ m :: n :: after.

(** [explains r e]: rule [r] has a fault for which [e] is the message. *)
Inductive explains (r : rule) (e : text) : Prop :=
| ex_op o : In o (rule_ops r) -> bad_op o e -> explains r e
| ex_nil : nil_in (r_match r) \/ nil_in (r_result r) -> e = msg_nil -> explains r e
| ex_clash m n : clashing (rule_groups r) m n -> e = msg_clash m n -> explains r e.
