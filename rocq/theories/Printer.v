(** Model of package printer (printer/printer.go). *)
From Verif Require Import Text GoAst Ast.
From Coq Require Import Arith Bool.

(** An io.Writer: a state [W] and a Write method that receives one chunk and
    returns the new state and an error ([None] = nil).  fmt.Fprintf formats its
    arguments and calls Write exactly once. *)
Section Printer.
  Context {W : Type}.
  Variable write : W -> text -> W * option text.

  (** type printer, printer/printer.go:37-40. *)
  Record printer := { p_w : W; p_err : option text }.

  (** seterror, printer/printer.go:233-237. *)
  Definition seterror (err : option text) (p : printer) : printer :=
    match p_err p with
    | None => {| p_w := p_w p; p_err := err |}
    | Some _ => p
    end.

  (** printf, printer/printer.go:225-231, applied to the formatted text. *)
  Definition printf (chunk : text) (p : printer) : printer :=
    match p_err p with
    | Some _ => p
    | None =>
        let '(w', err) := write (p_w p) chunk in
        seterror err {| p_w := w'; p_err := p_err p |}
    end.

  (** The argument loop of a call, printer/printer.go:207-212. *)
  Definition print_args (goexpr : gexpr -> printer -> printer)
    : nat -> list gexpr -> printer -> printer :=
    fix loop (i : nat) (args : list gexpr) (p : printer) : printer :=
      match args with
      | [] => p
      | a :: args' =>
          let p := if 0 <? i then printf (str ", ") p else p in
          loop (S i) args' (goexpr a p)
      end.

  (** goexpr, printer/printer.go:183-223.  *ast.Ident formats with its String
      method, i.e. as its name. *)
  Fixpoint p_goexpr (e : gexpr) (p : printer) : printer :=
    match e with
    | GIdent _ name => printf name p
    | GBasicLit _ _ v => printf v p
    | GParen _ x _ =>
        let p := printf (str "(") p in
        let p := p_goexpr x p in
        printf (str ")") p
    | GUnary _ op x =>
        let p := printf (tok_string op) p in
        p_goexpr x p
    | GBinary x _ op y =>
        let p := p_goexpr x p in
        let p := if tok_prec op <? tok_prec ADD
                 then printf (str " " ++ tok_string op ++ str " ") p
                 else printf (tok_string op) p in
        p_goexpr y p
    | GCall f _ args _ _ =>
        let p := p_goexpr f p in
        let p := printf (str "(") p in
        let p := print_args (fun a => p_goexpr a) 0 args p in
        printf (str ")") p
    | GStar _ x =>
        let p := printf (str "*") p in
        p_goexpr x p
    | GSelector x _ sel =>
        let p := p_goexpr x p in
        printf (str "." ++ sel) p
    | GOther t => seterror (Some (unexpected_type t)) p
    | GNil => seterror (Some (unexpected_type (str "<nil>"))) p
    end.

  (** The separator loop of oppart, printer/printer.go:171-176. *)
  Fixpoint print_alts (sep : ascii) (alts : list text) (p : printer) : printer :=
    match alts with
    | [] => p
    | c :: alts' => print_alts "|"%char alts' (printf (sep :: c) p)
    end.

  (** oppart, printer/printer.go:167-181. *)
  Definition p_oppart (o : oppart) (p : printer) : printer :=
    match o with
    | PCode c => printf c p
    | PAlt alts => printf (str ")") (print_alts "("%char alts p)
    | PNilPart => seterror (Some (unexpected_type (str "<nil>"))) p
    end.

  (** op, printer/printer.go:154-165. *)
  Definition p_op (o : op) (p : printer) : printer :=
    match o with
    | Opcode c => printf c p
    | OpcodeParts ps => fold_left (fun p part => p_oppart part p) ps p
    | NilOp => seterror (Some (unexpected_type (str "<nil>"))) p
    end.

  (** sexpr, printer/printer.go:103-152, parametrised by [value] for its arguments. *)
  Definition p_sexpr (p_value : value -> printer -> printer) (s : sexpr) (p : printer) : printer :=
    let p := match s_binding s with [] => p | b => printf (b ++ str ":") p end in
    let p := printf (str "(") p in
    let p := p_op (s_op s) p in
    let p := match s_type s with [] => p | t => printf (str " <" ++ t ++ str ">") p end in
    let p := match s_auxint s with
             | None => p
             | Some e => printf (str "]") (p_goexpr e (printf (str " [") p)) end in
    let p := match s_aux s with
             | None => p
             | Some e => printf (str "}") (p_goexpr e (printf (str " {") p)) end in
    let p := fold_left (fun p arg => p_value arg (printf (str " ") p)) (s_args s) p in
    let p := if s_ellipsis s then printf (str " ...") p else p in
    let p := if s_trailing s then printf (str " ___") p else p in
    printf (str ")") p.

  (** value, printer/printer.go:90-101. *)
  Fixpoint p_value (v : value) (p : printer) : printer :=
    match v with
    | SExp s => p_sexpr (fun a => p_value a) s p
    | EVal e => p_goexpr e p
    | Var x => printf x p
    | NilValue => seterror (Some (unexpected_type (str "<nil>"))) p
    end.

  (** rule, printer/printer.go:68-88. *)
  Definition p_rule (r : rule) (p : printer) : printer :=
    let p := p_value (r_match r) p in
    let p := match r_cond r with
             | None => p
             | Some e => p_goexpr e (printf (str " && ") p) end in
    let p := printf (str " => ") p in
    let p := match r_block r with [] => p | b => printf (str "@" ++ b ++ str " ") p end in
    p_value (r_result r) p.

  (** node, printer/printer.go:46-66. *)
  Definition p_node (n : node) (p : printer) : printer :=
    match n with
    | NFile f => fold_left (fun p r => printf [nl] (p_rule r p)) (f_rules f) p
    | NRule r => p_rule r p
    | NSExpr s => p_value (SExp s) p
    | NExpr e => p_value (EVal e) p
    | NVar x => p_value (Var x) p
    | NOpcode c => p_op (Opcode c) p
    | NParts ps => p_op (OpcodeParts ps) p
    | NAlt _ | NNil => seterror (Some (unexpected_type (node_type n))) p
    end.

  (** Fprint, printer/printer.go:31-35: final writer state and returned error. *)
  Definition Fprint (w : W) (n : node) : W * option text :=
    let p := p_node n {| p_w := w; p_err := None |} in (p_w p, p_err p).
End Printer.
Arguments printer : clear implicits.

(** bytes.Buffer as a writer: appends, never fails (printer/printer.go:17-23). *)
Definition buf_write (w : text) (chunk : text) : text * option text := (w ++ chunk, None).

(** Bytes, printer/printer.go:17-23. *)
Definition Bytes (n : node) : res text :=
  match Fprint buf_write [] n with
  | (b, None) => Ok b
  | (_, Some e) => Err e
  end.
