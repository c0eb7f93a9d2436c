(** Specification of the messages of a failed script generation: what is wrong,
    and where.  Uses the typing of SpecSmt.v, not the generator. *)
From Verif Require Import Text GoAst Ast SpecPrint SpecSmt.

(** Go's names of the types. *)
Definition type_name (t : ty) : text :=
  match t with
  | TyBool => str "bool"
  | TyInt W8 => str "int8" | TyInt W16 => str "int16" | TyInt W32 => str "int32" | TyInt W64 => str "int64"
  end.

(** The features of an s-expression beyond opcode and arguments: used or not, and
    what the message calls them; the first used one is reported. *)
Definition features (s : sexpr) : list (Prop * string) :=
  [ (s_binding s <> [], "sexpr binding"); (s_type s <> [], "sexpr type field");
    (s_auxint s <> None, "sexpr auxint field"); (s_aux s <> None, "sexpr aux field");
    (s_ellipsis s = true, "sexpr ellipsis"); (s_trailing s = true, "sexpr trailing") ]%string.

(** The type expected of a value agrees with the result of an operator. *)
Definition fits (expected : option ty) (o : operator) : Prop :=
  expected = None \/ expected = Some (result o).

(** [wrong expected before v msg]: the value itself is at fault.  [expected] is
    the type its place asks for (None: any), [before] the variables met so far.
    (With the operators there are, all of one width, [w_inconsistent] cannot come up;
    it is kept because the generator checks it.) *)
Inductive wrong (expected : option ty) (before : list (text * ty)) : value -> text -> Prop :=
| w_feature s pre used name post :
    features s = pre ++ (used, name) :: post -> Forall (fun f => ~ fst f) pre -> used ->
    wrong expected before (SExp s) (str "not supported: " ++ str name)
| w_unexpanded s :
    bare s -> (forall c, s_op s <> Opcode c) ->
    wrong expected before (SExp s) (str "unexpanded opcode")
| w_opcode s c :
    bare s -> s_op s = Opcode c -> (forall o, c <> opcode_of o) ->
    wrong expected before (SExp s) (str "not supported: opcode " ++ c)
| w_result s o t :
    bare s -> s_op s = Opcode (opcode_of o) -> expected = Some t -> t <> result o ->
    wrong expected before (SExp s) (opcode_of o ++ str ": invalid return type " ++ type_name t)
| w_arity s o :
    bare s -> s_op s = Opcode (opcode_of o) -> fits expected o ->
    List.length (s_args s) <> List.length (params o) ->
    wrong expected before (SExp s)
      (opcode_of o ++ str ": expect " ++ dec (List.length (params o)) ++
       str " arguments got " ++ dec (List.length (s_args s)))
| w_untyped x :
    expected = None -> (forall t, ~ In (x, t) before) ->
    wrong expected before (Var x) (str "declare " ++ x ++ str ": cannot deduce type")
| w_inconsistent x t t' :
    expected = Some t -> In (x, t') before -> t <> t' ->
    wrong expected before (Var x) (str "inconsistent types for variable " ++ x)
| w_expr e : wrong expected before (EVal e) (str "assertion failure: unexpected type *ast.Expr")
| w_nil : wrong expected before NilValue (str "assertion failure: unexpected type <nil>").

(** The variables of well-typed values with their types. *)
Definition typings (G : text -> ty) (xs : list text) : list (text * ty) := map (fun x => (x, G x)) xs.

(** [blame expected before v msg]: the first fault of [v] in reading order; the
    message starts with the way to it. *)
Inductive blame : option ty -> list (text * ty) -> value -> text -> Prop :=
| b_here expected before v msg : wrong expected before v msg -> blame expected before v msg
| b_arg expected before s o pre a post t G msg :
    bare s -> s_op s = Opcode (opcode_of o) -> fits expected o ->
    s_args s = pre ++ a :: post -> List.length (s_args s) = List.length (params o) ->
    (forall x t, In (x, t) before -> G x = t) ->
    Forall2 (typed G) pre (firstn (List.length pre) (params o)) ->
    nth_error (params o) (List.length pre) = Some t ->
    blame (Some t) (before ++ typings G (flat_map value_vars pre)) a msg ->
    blame expected before (SExp s)
      (opcode_of o ++ str ": evaluate argument " ++ dec (List.length pre) ++ str ": " ++ msg).

(** Rules: what cannot be printed, the match, condition, block, the result. *)
Inductive rule_blame (r : rule) : text -> Prop :=
| rb_print t ts : rule_bad r = t :: ts ->
    rule_blame r (str "assertion failure: unexpected type " ++ t)
| rb_match msg : rule_bad r = [] -> blame None [] (r_match r) msg -> rule_blame r msg
| rb_cond G s t : rule_bad r = [] -> r_match r = SExp s -> typed G (r_match r) t -> r_cond r <> None ->
    rule_blame r (str "not supported: rule conditions")
| rb_block G s t : rule_bad r = [] -> r_match r = SExp s -> typed G (r_match r) t -> r_cond r = None ->
    r_block r <> [] -> rule_blame r (str "not supported: rule blocks")
| rb_result G s t msg : rule_bad r = [] -> r_match r = SExp s -> typed G (r_match r) t -> r_cond r = None ->
    r_block r = [] -> blame (Some t) (typings G (value_vars (r_match r))) (r_result r) msg ->
    rule_blame r msg.
