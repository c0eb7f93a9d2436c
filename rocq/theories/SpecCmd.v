(** Vocabulary for the command's properties. *)
From Verif Require Import Text GoAst Ast SpecTree SpecExpand SpecPrint SpecSmt.
From Coq Require Import Arith.

(** A simple rule: no condition, no block, and no s-expression anywhere in it
    uses a binding, type, auxint, aux, ellipsis or trailing marker. *)
Definition simple_rule (r : rule) : Prop :=
  r_cond r = None /\ r_block r = [] /\ forall s, occurs (NSExpr s) (NRule r) -> bare s.

(** [sifted P l k]: [k] is [l] without the elements that do not satisfy [P]. *)
Inductive sifted {A} (P : A -> Prop) : list A -> list A -> Prop :=
| sift_nil : sifted P [] []
| sift_keep a l k : P a -> sifted P l k -> sifted P (a :: l) (a :: k)
| sift_drop a l k : ~ P a -> sifted P l k -> sifted P (a :: l) k.

(** Numbers written in decimal. *)
Definition digit (c : ascii) : Prop := 48 <= nat_of_ascii c <= 57.
Definition number (ds : text) : nat :=
  fold_left (fun n c => 10 * n + (nat_of_ascii c - 48)) ds 0.
(** [i] in decimal, padded with zeros to four digits and no further. *)
Definition four_digits (i : nat) (ds : text) : Prop :=
  Forall digit ds /\ number ds = i /\ 4 <= List.length ds /\
  (4 < List.length ds -> hd_error ds <> Some "0"%char).

(** The output of a run over the rules [rs]: for the rules that have a script
    ([gen]), in order, the script under its index; and the messages logged. *)
Inductive outputs (gen : rule -> res text) (path : text -> text)
  : nat -> list rule -> list (text * text) -> list text -> Prop :=
| out_nil i : outputs gen path i [] [] []
| out_script i r rs ds s l log :
    gen r = Ok s -> four_digits i ds -> outputs gen path (S i) rs l log ->
    outputs gen path i (r :: rs) ((path (ds ++ str ".smt2"), s) :: l)
      ((str "rule: " ++ rule_text r) :: (str "smt2: written to " ++ path (ds ++ str ".smt2")) :: log)
| out_none i r rs e l log :
    gen r = Err e -> outputs gen path (S i) rs l log ->
    outputs gen path i (r :: rs) l ((str "rule: " ++ rule_text r) :: (str "error: " ++ e) :: log).

(** Complaints about a tree of plain operations: where, and what is wrong. *)
Definition ty_name (t : ty) : text :=
  match t with TyBool => str "bool" | TyInt w => str "int" ++ str (width_name w) end.
Inductive complains : value -> text -> Prop :=
| cp_opcode s c :                                (* an opcode that is not known *)
    s_op s = Opcode c -> operator_of c = None ->
    complains (SExp s) (not_supported (str "opcode " ++ c))
| cp_type s o t :                                (* an operation of another type than needed *)
    s_op s = Opcode (opcode_of o) -> t <> result o ->
    complains (SExp s) (opcode_of o ++ str ": invalid return type " ++ ty_name t)
| cp_count s o :                                 (* a wrong number of arguments *)
    s_op s = Opcode (opcode_of o) -> List.length (s_args s) <> List.length (params o) ->
    complains (SExp s) (opcode_of o ++ str ": expect " ++ dec (List.length (params o)) ++
                        str " arguments got " ++ dec (List.length (s_args s)))
| cp_arg s o i a e :                             (* a complaint about an argument *)
    s_op s = Opcode (opcode_of o) -> nth_error (s_args s) i = Some a -> complains a e ->
    complains (SExp s) (opcode_of o ++ str ": evaluate argument " ++ dec i ++ str ": " ++ e)
| cp_var x : complains (Var x) (str "inconsistent types for variable " ++ x)
| cp_untyped x : complains (Var x) (str "declare " ++ x ++ str ": cannot deduce type")
| cp_call e : complains (EVal e) (str "assertion failure: unexpected type *ast.Expr").   (* a Go expression *)
