(** Model of package smt2 (smt2/ops.go, smt2/generate.go). *)
From Verif Require Import Text GoAst Ast Printer.
From Coq Require Import Arith Bool.
Open Scope res_scope.

(** go/types: the basic kinds that appear in smt2 (ops.go:41-75,
    generate.go:127-147). *)
Inductive bkind :=
| KBool | KInt | KInt8 | KInt16 | KInt32 | KInt64
| KUint | KUint8 | KUint16 | KUint32 | KUint64 | KUintptr
| KFloat32 | KFloat64 | KComplex64 | KComplex128 | KString | KUnsafePointer.

(** Equality of gotypes.BasicKind, smt2/generate.go:127. *)
Definition bkind_eq_dec (a b : bkind) : {a = b} + {a <> b}.
Proof. decide equality. Defined.

(** go/types.Type: basic types and, by their name, any others.  A nil Type is
    [None] in an [option gtype] (smt2/ops.go:12-15). *)
Inductive gtype := TBasic (k : bkind) | TOtherType (name : text).

(** Equality of types, for [identical]. *)
Definition gtype_eq_dec (a b : gtype) : {a = b} + {a <> b}.
Proof. decide equality; [apply bkind_eq_dec | apply text_eq_dec]. Defined.

(** go/types.Identical, on the types above (smt2/ops.go:130,155, smt2/generate.go:96). *)
Definition identical (a b : gtype) : bool := if gtype_eq_dec a b then true else false.

(** go/types.Type.String (for smt2/ops.go:159). *)
Definition kind_name (k : bkind) : string :=
  match k with
  | KBool => "bool" | KInt => "int" | KInt8 => "int8" | KInt16 => "int16" | KInt32 => "int32"
  | KInt64 => "int64" | KUint => "uint" | KUint8 => "uint8" | KUint16 => "uint16"
  | KUint32 => "uint32" | KUint64 => "uint64" | KUintptr => "uintptr" | KFloat32 => "float32"
  | KFloat64 => "float64" | KComplex64 => "complex64" | KComplex128 => "complex128"
  | KString => "string" | KUnsafePointer => "unsafe.Pointer"
  end.
(** types.Type.String: the %s of smt2/ops.go:159 and smt2/generate.go:124,150. *)
Definition type_string (t : gtype) : text :=
  match t with TBasic k => str (kind_name k) | TOtherType n => n end.

(** type value, smt2/ops.go:12-15. *)
Record svalue := { v_expr : text; v_type : gtype }.

(** type signature, smt2/ops.go:119-123. *)
Record signature := { sig_result : gtype; sig_params : list gtype; sig_dflt : bool }.

(** type simple, smt2/ops.go:145-149. *)
Record simple := { op_arity : nat; op_sigs : list signature; op_format : text }.

(** unary and binary, smt2/ops.go:137-143. *)
Definition unary (k : bkind) : list gtype := [TBasic k].
(** binary, smt2/ops.go:141-143. *)
Definition binary (k : bkind) : list gtype := [TBasic k; TBasic k].

(** type variant, smt2/ops.go:31-35; its arity field is set but never read. *)
Record variant := { va_suffix : text; va_arity : nat; va_sigs : list signature }.

(** The variants u8..u64, b8..b64 and bbool, smt2/ops.go:37-76. *)
Definition int_sigs (params : bkind -> list gtype) (i u : bkind) : list signature :=
  [ {| sig_result := TBasic i; sig_params := params i; sig_dflt := true |};
    {| sig_result := TBasic u; sig_params := params u; sig_dflt := false |} ].
(** u8, smt2/ops.go:39-42. *)
Definition u8 := {| va_suffix := str "8"; va_arity := 1; va_sigs := int_sigs unary KInt8 KUint8 |}.
(** u16, smt2/ops.go:43-46. *)
Definition u16 := {| va_suffix := str "16"; va_arity := 1; va_sigs := int_sigs unary KInt16 KUint16 |}.
(** u32, smt2/ops.go:47-50. *)
Definition u32 := {| va_suffix := str "32"; va_arity := 1; va_sigs := int_sigs unary KInt32 KUint32 |}.
(** u64, smt2/ops.go:51-54. *)
Definition u64 := {| va_suffix := str "64"; va_arity := 1; va_sigs := int_sigs unary KInt64 KUint64 |}.
(** b8, smt2/ops.go:57-60. *)
Definition b8 := {| va_suffix := str "8"; va_arity := 2; va_sigs := int_sigs binary KInt8 KUint8 |}.
(** b16, smt2/ops.go:61-64. *)
Definition b16 := {| va_suffix := str "16"; va_arity := 2; va_sigs := int_sigs binary KInt16 KUint16 |}.
(** b32, smt2/ops.go:65-68. *)
Definition b32 := {| va_suffix := str "32"; va_arity := 2; va_sigs := int_sigs binary KInt32 KUint32 |}.
(** b64, smt2/ops.go:69-72. *)
Definition b64 := {| va_suffix := str "64"; va_arity := 2; va_sigs := int_sigs binary KInt64 KUint64 |}.
(** The one signature of bbool and of Not, smt2/ops.go:74,106. *)
Definition bool_sig (params : bkind -> list gtype) : list signature :=
  [ {| sig_result := TBasic KBool; sig_params := params KBool; sig_dflt := false |} ].
(** bbool, smt2/ops.go:73-75. *)
Definition bbool := {| va_suffix := str "B"; va_arity := 2; va_sigs := bool_sig binary |}.
(** The variant of Not, smt2/ops.go:106 (no suffix). *)
Definition ubool := {| va_suffix := []; va_arity := 1; va_sigs := bool_sig unary |}.

(** The families, smt2/ops.go:78-108. *)
Definition families : list (text * list variant * text) :=
  [ (str "Add", [b8; b16; b32; b64], str "(bvadd %s %s)");
    (str "Sub", [b8; b16; b32; b64], str "(bvsub %s %s)");
    (str "And", [b8; b16; b32; b64], str "(bvand %s %s)");
    (str "Or", [b8; b16; b32; b64], str "(bvor %s %s)");
    (str "Xor", [b8; b16; b32; b64], str "(bvxor %s %s)");
    (str "Neg", [u8; u16; u32; u64], str "(bvneg %s)");
    (str "Com", [u8; u16; u32; u64], str "(bvnot %s)");
    (str "And", [bbool], str "(and %s %s)");
    (str "Or", [bbool], str "(or %s %s)");
    (str "Eq", [bbool], str "(= %s %s)");
    (str "Neq", [bbool], str "(not (= %s %s))");
    (str "Not", [ubool], str "(not %s)") ].

(** buildoperations, smt2/ops.go:28-117: the assignments to the operations map,
    in order.  The arity field of simple is left at its zero value. *)
Definition operations : list (text * simple) :=
  flat_map (fun '(name, variants, format) =>
    map (fun v => (name ++ va_suffix v,
                   {| op_arity := 0; op_sigs := va_sigs v; op_format := format |})) variants)
    families.

(** Map lookup: the last assignment to a key wins (smt2/ops.go:109, smt2/generate.go:177). *)
Definition lookup_op (ops : list (text * simple)) (c : text) : option simple :=
  option_map snd (find (fun p => text_eqb (fst p) c) (rev ops)).

(** Method match of *signature, smt2/ops.go:125-135. *)
Fixpoint params_identical (a b : list gtype) : bool :=
  match a, b with
  | [], [] => true
  | x :: a', y :: b' => identical x y && params_identical a' b'
  | _, _ => false
  end.
(** signature.match, smt2/ops.go:125-135. *)
Definition sig_match (s : signature) (params : list gtype) : bool :=
  params_identical (sig_params s) params.

(** Method Params of *simple, smt2/ops.go:151-178.  [None] elements are nil types. *)
Definition op_params (s : simple) (result : option gtype) : res (list (option gtype)) :=
  match result with
  | Some t =>
      match find (fun sg => identical t (sig_result sg)) (op_sigs s) with
      | Some sg => Ok (map Some (sig_params sg))
      | None => Err (str "invalid return type " ++ type_string t)
      end
  | None =>
      match op_sigs s with
      | [sg] => Ok (map Some (sig_params sg))
      | _ =>
          match find sig_dflt (op_sigs s) with
          | Some sg => Ok (map Some (sig_params sg))
          | None => Ok (repeat None (op_arity s))
          end
      end
  end.

(** fmt.Sprintf restricted to %s verbs with string operands, including fmt's
    treatment of missing and extra operands (smt2/ops.go:187). *)
Fixpoint extra (first : bool) (args : list text) : text :=
  match args with
  | [] => []
  | a :: args' => (if first then [] else str ", ") ++ str "string=" ++ a ++ extra false args'
  end.
(** fmt.Sprintf, smt2/ops.go:187; see [extra]. *)
Fixpoint sprintf (format : text) (args : list text) : text :=
  match format with
  | [] => match args with [] => [] | _ => str "%!(EXTRA " ++ extra true args ++ str ")" end
  | c :: format' =>
      match c, format' with
      | "%"%char, "s"%char :: rest =>
          match args with
          | [] => str "%!s(MISSING)" ++ sprintf rest []
          | a :: args' => a ++ sprintf rest args'
          end
      | _, _ => c :: sprintf format' args
      end
  end.

(** Method Evaluate of *simple, smt2/ops.go:180-213.  The loop keeps the last matching
    signature. *)
Definition op_evaluate (s : simple) (args : list svalue) : res svalue :=
  let expr := sprintf (op_format s) (map v_expr args) in
  let params := map v_type args in
  let result := fold_left (fun acc sg => if sig_match sg params then Some (sig_result sg) else acc)
                          (op_sigs s) None in
  match result with
  | None => Err (str "cannot infer return type")
  | Some t => Ok {| v_expr := expr; v_type := t |}
  end.

(** typesort, smt2/generate.go:121-152. *)
Definition typesort (t : gtype) : res text :=
  match t with
  | TBasic KBool => Ok (str "Bool")
  | TBasic (KInt8 | KUint8) => Ok (str "(_ BitVec 8)")
  | TBasic (KInt16 | KUint16) => Ok (str "(_ BitVec 16)")
  | TBasic (KInt32 | KUint32) => Ok (str "(_ BitVec 32)")
  | TBasic (KInt64 | KUint64) => Ok (str "(_ BitVec 64)")
  | _ => Err (not_supported (str "type " ++ type_string t))
  end.

(** type generator, smt2/generate.go:29-34.  [g_out] is the contents of the
    bytes.Buffer; g.err stays nil because that writer never fails; g.ops is
    [operations] throughout. *)
Record gen := { g_out : text; g_vars : list (text * svalue) }.

(** generator.printf, smt2/generate.go:210-216, after formatting; the writer is a bytes.Buffer, which never fails, so g.err stays nil. *)
Definition g_printf (chunk : text) (g : gen) : gen :=
  {| g_out := g_out g ++ chunk; g_vars := g_vars g |}.

(** "g.vars[v]", smt2/generate.go:95: the value last assigned. *)
Definition lookup_var (g : gen) (x : text) : option svalue :=
  option_map snd (find (fun p => text_eqb (fst p) x) (g_vars g)).

(** variable, smt2/generate.go:93-119. *)
Definition g_variable (x : text) (t : option gtype) (g : gen) : res (svalue * gen) :=
  match lookup_var g x with
  | Some v =>
      match t with
      | Some t' =>
          if identical (v_type v) t' then Ok (v, g)
          else Err (str "inconsistent types for variable " ++ x)
      | None => Ok (v, g)
      end
  | None =>
      match t with
      | None => Err (str "declare " ++ x ++ str ": cannot deduce type")
      | Some t' =>
          match typesort t' with
          | Ok s =>
              let g := g_printf (str "(declare-const " ++ x ++ str " " ++ s ++ str ")" ++ [nl]) g in
              let v := {| v_expr := x; v_type := t' |} in
              Ok (v, {| g_out := g_out g; g_vars := (x, v) :: g_vars g |})
          | Err e => Err (str "declare " ++ x ++ str ": " ++ e)
          | Panic m => Panic m
          end
      end
  end.

(** Wrapping an error with a prefix (fmt.Errorf with %w) (smt2/generate.go:109,185,196,204). *)
Definition wrap {A} (prefix : text) (r : res A) : res A :=
  match r with Err e => Err (prefix ++ e) | _ => r end.

(** The argument loop of sexpr, smt2/generate.go:192-199. *)
Definition g_args (c : text) (eval : value -> option gtype -> gen -> res (svalue * gen))
  : nat -> list value -> list (option gtype) -> gen -> res (list svalue * gen) :=
  fix loop (i : nat) (args : list value) (params : list (option gtype)) (g : gen) :=
    match args, params with
    | [], _ => Ok ([], g)
    | a :: args', p :: params' =>
        let* r := wrap (c ++ str ": evaluate argument " ++ dec i ++ str ": ") (eval a p g) in
        let '(v, g') := r in
        let* rs := loop (S i) args' params' g' in
        let '(vs, g'') := rs in
        Ok (v :: vs, g'')
    | _ :: _, [] => Panic (str "runtime error: index out of range")
    end.

(** The checks of sexpr before its arguments are evaluated,
    smt2/generate.go:155-180. *)
Definition g_precheck (s : sexpr) : res (text * simple) :=
  if negb (match s_binding s with [] => true | _ => false end) then Err (not_supported (str "sexpr binding"))
  else if negb (match s_type s with [] => true | _ => false end) then Err (not_supported (str "sexpr type field"))
  else match s_auxint s with Some _ => Err (not_supported (str "sexpr auxint field")) | None =>
       match s_aux s with Some _ => Err (not_supported (str "sexpr aux field")) | None =>
       if s_ellipsis s then Err (not_supported (str "sexpr ellipsis"))
       else if s_trailing s then Err (not_supported (str "sexpr trailing"))
       else match s_op s with
            | Opcode c =>
                match lookup_op operations c with
                | Some o => Ok (c, o)
                | None => Err (not_supported (str "opcode " ++ c))
                end
            | _ => Err (str "unexpanded opcode")
            end
       end end.

(** eval and sexpr, smt2/generate.go:80-91,154-208. *)
Fixpoint g_eval (v : value) (t : option gtype) (g : gen) : res (svalue * gen) :=
  match v with
  | Var x => g_variable x t g
  | SExp s =>
      let* co := g_precheck s in
      let '(c, o) := co in
      let* params := wrap (c ++ str ": ") (op_params o t) in
      if negb (List.length params =? List.length (s_args s)) then
        Err (c ++ str ": expect " ++ dec (List.length params) ++ str " arguments got "
               ++ dec (List.length (s_args s)))
      else
        let* r := g_args c (fun a => g_eval a) 0 (s_args s) params g in
        let '(args, g') := r in
        let* v := wrap (c ++ str ": ") (op_evaluate o args) in
        Ok (v, g')
  | EVal _ => Err (unexpected_type (str "*ast.Expr"))
  | NilValue => Err (unexpected_type (str "<nil>"))
  end.

(** strings.ReplaceAll(s, "\n", "\n; ") (smt2/generate.go:46). *)
Fixpoint comment_lines (s : text) : text :=
  match s with
  | [] => []
  | c :: s' => if ascii_dec c nl then nl :: str "; " ++ comment_lines s' else c :: comment_lines s'
  end.

(** generate, smt2/generate.go:36-78. *)
Definition g_generate (r : rule) (g : gen) : res gen :=
  let g := g_printf (str "(set-info :smt-lib-version 2.6)" ++ [nl]) g in
  let g := g_printf (str "(set-logic QF_BV)" ++ [nl]) g in
  let* ruletext := Bytes (NRule r) in
  let g := g_printf (str "; " ++ comment_lines ruletext ++ [nl]) g in
  let* mg := g_eval (r_match r) None g in
  let '(m, g) := mg in
  match r_cond r with
  | Some _ => Err (not_supported (str "rule conditions"))
  | None =>
      match r_block r with
      | _ :: _ => Err (not_supported (str "rule blocks"))
      | [] =>
          let* rg := g_eval (r_result r) (Some (v_type m)) g in
          let '(x, g) := rg in
          let g := g_printf (str "(assert (not (= " ++ v_expr m ++ str " " ++ v_expr x ++ str ")))" ++ [nl]) g in
          let g := g_printf (str "(check-sat)" ++ [nl]) g in
          let g := g_printf (str "(exit)" ++ [nl]) g in
          Ok g
      end
  end.

(** Generate, smt2/generate.go:16-27. *)
Definition Generate (r : rule) : res text :=
  let* g := g_generate r {| g_out := []; g_vars := [] |} in Ok (g_out g).
