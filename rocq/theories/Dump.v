(** Model of ast.Fprint, ast.Print and ast.Dump (ast/ast.go:91-108).

    They call go/ast.Fprint (standard library, src/go/ast/print.go of Go 1.16), which
    prints any data by reflection; this is a reference model of it on the types of
    package ast and on the expressions of go/ast that GoAst.v has.  Simplifications:
    every pointer is met once, so the map from pointers to lines (print.go, ptrmap) is
    left out; an empty slice is nil; ast.Ident.Obj is nil (true of what
    go/parser.ParseExpr returns since Go 1.17). *)
From Verif Require Import Text GoAst Ast Utf8 Quote Parse.
From Coq Require Import Arith Bool NArith.

(** What print does, in order: a call of printf with this formatted text, and changes
    of the indentation (print.go). *)
Inductive act := Pr (chunk : text) | In_ | Out_.

Section Acts.
  Variable wide_print : N -> bool.
  (** How the other go/ast expressions are printed. *)
  Variable other : text -> list act.

  (** print.go, case reflect.Struct: the fields with their names, in order; [None] for
      those the filter NotNilFilter rejects. *)
  Fixpoint a_fields (first : bool) (fields : list (string * option (list act))) : list act :=
    match fields with
    | [] => []
    | (_, None) :: fs => a_fields first fs
    | (name, Some v) :: fs =>
        (if first then [Pr [nl]] else []) ++ Pr (str name ++ str ": ") :: v ++ Pr [nl] :: a_fields false fs
    end.
  (** Pointers to structs: print.go, cases reflect.Ptr and reflect.Struct. *)
  Definition a_struct (ty : string) (fields : list (string * option (list act))) : list act :=
    Pr (str "*") :: Pr (str ty ++ str " {") :: In_ :: a_fields true fields ++ [Out_; Pr (str "}")].

  (** print.go, case reflect.Slice. *)
  Fixpoint a_elems (i : nat) (l : list (list act)) : list act :=
    match l with
    | [] => []
    | v :: l' => Pr (dec i ++ str ": ") :: v ++ Pr [nl] :: a_elems (S i) l'
    end.
  Definition a_slice (ty : string) (l : list (list act)) : list act :=
    match l with
    | [] => [Pr (str "nil")]                       (* a nil slice: print.go, !NotNilFilter *)
    | _ => Pr (str ty ++ str " (len = " ++ dec (List.length l) ++ str ") {") ::
           In_ :: Pr [nl] :: a_elems 0 l ++ [Out_; Pr (str "}")]
    end.
  (** A field of a slice type: left out by NotNilFilter if nil. *)
  Definition f_slice (ty : string) (l : list (list act)) : option (list act) :=
    match l with [] => None | _ => Some (a_slice ty l) end.

  (** print.go, default case: strings are quoted, everything else is printed with %v;
      the types Opcode, Variable and Type are not string. *)
  Definition a_string (s : text) : option (list act) := Some [Pr (Quote wide_print s)].
  (** A value of type Opcode, Variable or Type (ast/ast.go:53,75,84), printed with %v. *)
  Definition a_text (s : text) : option (list act) := Some [Pr s].
  (** A token.Pos, printed with %v. *)
  Definition a_pos (p : gopos) : option (list act) := Some [Pr (decN p)].
  (** A bool, printed with %v. *)
  Definition a_bool (b : bool) : option (list act) := Some [Pr (str (if b then "true" else "false"))].
  (** token.Token.String of the literal kinds. *)
  Definition kind_text (k : litkind) : text :=
    str match k with LInt => "INT" | LFloat => "FLOAT" | LImag => "IMAG" | LChar => "CHAR" | LString => "STRING" end.

  (** go/ast expressions; the fields in the order of their declaration in go/ast (print.go, case reflect.Struct). *)
  Fixpoint a_gexpr (e : gexpr) : list act :=
    let f_gexpr e := match e with GNil => None | _ => Some (a_gexpr e) end in
    match e with
    | GIdent p n => a_struct "ast.Ident" [("NamePos"%string, a_pos p); ("Name"%string, a_string n)]
    | GBasicLit p k v => a_struct "ast.BasicLit" [("ValuePos"%string, a_pos p); ("Kind"%string, a_text (kind_text k)); ("Value"%string, a_string v)]
    | GParen l x r => a_struct "ast.ParenExpr" [("Lparen"%string, a_pos l); ("X"%string, f_gexpr x); ("Rparen"%string, a_pos r)]
    | GUnary p o x => a_struct "ast.UnaryExpr" [("OpPos"%string, a_pos p); ("Op"%string, a_text (tok_string o)); ("X"%string, f_gexpr x)]
    | GBinary x p o y =>
        a_struct "ast.BinaryExpr" [("X"%string, f_gexpr x); ("OpPos"%string, a_pos p); ("Op"%string, a_text (tok_string o)); ("Y"%string, f_gexpr y)]
    | GCall f l args el r =>
        a_struct "ast.CallExpr" [("Fun"%string, f_gexpr f); ("Lparen"%string, a_pos l);
          ("Args"%string, f_slice "[]ast.Expr" (map a_gexpr args)); ("Ellipsis"%string, a_pos el); ("Rparen"%string, a_pos r)]
    | GStar p x => a_struct "ast.StarExpr" [("Star"%string, a_pos p); ("X"%string, f_gexpr x)]
    | GSelector x p s =>
        a_struct "ast.SelectorExpr" [("X"%string, f_gexpr x);
          ("Sel"%string, Some (a_struct "ast.Ident" [("NamePos"%string, a_pos p); ("Name"%string, a_string s)]))]
    | GOther t => other t
    | GNil => [Pr (str "nil")]
    end.

  (** *ast.Expr, ast/ast.go:77-79. *)
  Definition a_expr (e : gexpr) : list act :=
    a_struct "ast.Expr" [("Expr"%string, match e with GNil => None | _ => Some (a_gexpr e) end)].
  (** A field of type *Expr (ast/ast.go:22,38,39), left out if nil. *)
  Definition f_expr (e : option gexpr) : option (list act) := option_map a_expr e.

  (** Opcodes, ast/ast.go:48-73. *)
  Definition a_part (p : oppart) : list act :=
    match p with
    | PCode c => [Pr c]
    | PAlt a => a_slice "ast.OpcodeAlt" (map (fun c => [Pr c]) a)
    | PNilPart => [Pr (str "nil")]
    end.
  (** An ast.Op, ast/ast.go:48-73. *)
  Definition a_op (o : op) : list act :=
    match o with
    | Opcode c => [Pr c]
    | OpcodeParts ps => a_slice "ast.OpcodeParts" (map a_part ps)
    | NilOp => [Pr (str "nil")]
    end.

  (** *ast.SExpr, ast/ast.go:34-43, and the other values. *)
  Fixpoint a_value (v : value) : list act :=
    match v with
    | SExp s =>
        a_struct "ast.SExpr" [("Binding"%string, a_text (s_binding s));
          ("Op"%string, match s_op s with NilOp => None | o => Some (a_op o) end);
          ("Type"%string, a_text (s_type s)); ("AuxInt"%string, f_expr (s_auxint s)); ("Aux"%string, f_expr (s_aux s));
          ("Args"%string, f_slice "[]ast.Value" (map a_value (s_args s)));
          ("Ellipsis"%string, a_bool (s_ellipsis s)); ("Trailing"%string, a_bool (s_trailing s))]
    | EVal e => a_expr e
    | Var x => [Pr x]
    | NilValue => [Pr (str "nil")]
    end.
  (** A field of type Value, left out if nil. *)
  Definition f_value (v : value) : option (list act) := match v with NilValue => None | _ => Some (a_value v) end.

  (** *ast.Rule and *ast.File, ast/ast.go:14-25. *)
  Definition a_rule (r : rule) : list act :=
    a_struct "ast.Rule" [("Match"%string, f_value (r_match r)); ("Condition"%string, f_expr (r_cond r));
                         ("Block"%string, a_string (r_block r)); ("Result"%string, f_value (r_result r))].
  (** A *File, ast/ast.go:14-16. *)
  Definition a_file (f : file) : list act :=
    a_struct "ast.File" [("Rules"%string, f_slice "[]*ast.Rule" (map a_rule (f_rules f)))].

  (** fprint (print.go) without its printer. *)
  Definition a_node (n : node) : list act :=
    match n with
    | NFile f => a_file f ++ [Pr [nl]]
    | NRule r => a_rule r ++ [Pr [nl]]
    | NSExpr s => a_value (SExp s) ++ [Pr [nl]]
    | NExpr e => a_expr e ++ [Pr [nl]]
    | NVar x => [Pr x; Pr [nl]]
    | NOpcode c => [Pr c; Pr [nl]]
    | NParts ps => a_op (OpcodeParts ps) ++ [Pr [nl]]
    | NAlt a => a_part (PAlt a) ++ [Pr [nl]]
    | NNil => [Pr (str "nil" ++ [nl])]            (* x == nil *)
    end.
End Acts.

Section Printer.
  Context {W : Type}.
  Variable write : W -> text -> W * option text.

  (** type printer, print.go.  [d_err]: the error of the panic that ended the printing,
      after which nothing is written. *)
  Record dprinter := { d_w : W; d_err : option text; d_indent : nat; d_last : ascii; d_line : nat }.

  Definition d_out (chunk : text) (p : dprinter) : dprinter :=
    match d_err p with
    | Some _ => p
    | None => let '(w, e) := write (d_w p) chunk in
              {| d_w := w; d_err := e; d_indent := d_indent p; d_last := d_last p; d_line := d_line p |}
    end.
  (** fmt's %6d (print.go, printer.Write). *)
  Definition dec6 (n : nat) : text := let d := dec n in repeat sp (6 - List.length d) ++ d.
  (** The indentation loop of printer.Write (print.go). *)
  Fixpoint d_indentation (k : nat) (p : dprinter) : dprinter :=
    match k with O => p | S k => d_indentation k (d_out (str ".  ") p) end.
  (** printer.Write, print.go: [pending] is data[n:i]. *)
  Fixpoint d_write (pending data : text) (p : dprinter) : dprinter :=
    match data with
    | [] => match pending with [] => p | _ => d_out pending p end
    | b :: data =>
        if ascii_dec b nl then
          let p := d_out (pending ++ [nl]) p in
          d_write [] data {| d_w := d_w p; d_err := d_err p; d_indent := d_indent p; d_last := b; d_line := S (d_line p) |}
        else
          let p := if ascii_dec (d_last p) nl then d_indentation (d_indent p) (d_out (dec6 (d_line p) ++ str "  ") p) else p in
          d_write (pending ++ [b]) data {| d_w := d_w p; d_err := d_err p; d_indent := d_indent p; d_last := b; d_line := d_line p |}
    end.
  (** print.go: p.printf, "p.indent++", "p.indent--". *)
  Definition d_act (p : dprinter) (a : act) : dprinter :=
    match a with
    | Pr chunk => d_write [] chunk p
    | In_ => {| d_w := d_w p; d_err := d_err p; d_indent := S (d_indent p); d_last := d_last p; d_line := d_line p |}
    | Out_ => {| d_w := d_w p; d_err := d_err p; d_indent := pred (d_indent p); d_last := d_last p; d_line := d_line p |}
    end.
  (** Fprint: all of it, stopping at the first error of the writer. *)
  Definition d_run (acts : list act) (w : W) : W * option text :=
    let p := fold_left d_act acts {| d_w := w; d_err := None; d_indent := 0; d_last := nl; d_line := 0 |} in (d_w p, d_err p).

  (** Fprint, ast/ast.go:105-108. *)
  Definition Fprint (wide_print : N -> bool) (other : text -> list act) (w : W) (n : node) : W * option text :=
    d_run (a_node wide_print other n) w.
End Printer.
Arguments dprinter : clear implicits.

(** Dump, ast/ast.go:96-103, with a bytes.Buffer, which appends and never fails. *)
Definition Dump (wide_print : N -> bool) (other : text -> list act) (n : node) : res text :=
  match Fprint (fun w chunk => (w ++ chunk, None)) wide_print other [] n with
  | (b, None) => Ok b
  | (_, Some e) => Err e
  end.
