(** What a dump looks like: the specification of C58 and C59. *)
From Verif Require Import Text GoAst Ast Utf8 SpecUtf8 Quote Parse SpecSyntax.
Open Scope nat_scope.
Open Scope list_scope.
From Coq Require Import NArith.

(** A dump as a document: a scalar, or a head and labelled items in braces. *)
Inductive doc := Leaf (t : text) | Block (head : text) (items : list (text * doc)).

(** The lines of a text: there is one more of them than there are newlines. *)
Fixpoint split_nl (t : text) : list text :=
  match t with
  | [] => [[]]
  | c :: t' => if ascii_dec c nl then [] :: split_nl t'
               else match split_nl t' with l :: ls => (c :: l) :: ls | [] => [[c]] end
  end.

(** The lines of a document, each with its depth.  The first one starts with the label. *)
Fixpoint doc_lines (depth : nat) (label : text) (d : doc) : list (nat * text) :=
  match d with
  | Leaf t => map (pair depth) (split_nl (label ++ t))
  | Block head [] => [(depth, label ++ head ++ str " {}")]
  | Block head items =>
      (depth, label ++ head ++ str " {") ::
      flat_map (fun item => doc_lines (S depth) (fst item ++ str ": ") (snd item)) items ++
      [(depth, str "}")]
  end.

(** On the page: the number of the line, right-aligned, a dot for every level, and the
    line.  An empty line stays empty, but is counted. *)
Definition align6 (t : text) : text := repeat sp (6 - List.length t) ++ t.
Definition page_line (i : nat) (l : nat * text) : text :=
  match snd l with
  | [] => [nl]
  | c => align6 (dec i) ++ str "  " ++ List.concat (repeat (str ".  ") (fst l)) ++ c ++ [nl]
  end.
Fixpoint page (i : nat) (ls : list (nat * text)) : text :=
  match ls with [] => [] | l :: ls => page_line i l ++ page (S i) ls end.

(** ** The document of a node *)

(** A pointer to a struct: its fields, without those that are nil. *)
Definition struct (ty : string) (fields : list (string * option doc)) : doc :=
  Block (str "*" ++ str ty)
    (flat_map (fun f => match snd f with Some d => [(str (fst f), d)] | None => [] end) fields).
(** A slice: its elements, labelled with their indices. *)
Fixpoint indexed (i : nat) (l : list doc) : list (text * doc) :=
  match l with [] => [] | d :: l => (dec i, d) :: indexed (S i) l end.
Definition slice (ty : string) (l : list doc) : doc :=
  match l with
  | [] => Leaf (str "nil")
  | _ => Block (str ty ++ str " (len = " ++ dec (List.length l) ++ str ")") (indexed 0 l)
  end.
Definition some_slice (ty : string) (l : list doc) : option doc :=
  match l with [] => None | _ => Some (slice ty l) end.

Definition pos_doc (p : gopos) : option doc := Some (Leaf (decN p)).
Definition bool_doc (b : bool) : option doc := Some (Leaf (str (if b then "true" else "false"))).
Definition lit_doc (k : litkind) : option doc :=
  Some (Leaf (str match k with LInt => "INT" | LFloat => "FLOAT" | LImag => "IMAG" | LChar => "CHAR" | LString => "STRING" end)).
Definition tok_doc (o : gotok) : option doc := Some (Leaf (tok_string o)).

Section Docs.
  Variable wide_print : N -> bool.
  Definition string_doc (s : text) : option doc := Some (Leaf (Quote wide_print s)).
  Definition ident_doc (p : gopos) (n : text) : doc := struct "ast.Ident" [("NamePos", pos_doc p); ("Name", string_doc n)]%string.

  Fixpoint gexpr_doc (e : gexpr) : doc :=
    let field e := match e with GNil => None | _ => Some (gexpr_doc e) end in
    match e with
    | GIdent p n => ident_doc p n
    | GBasicLit p k v => struct "ast.BasicLit" [("ValuePos", pos_doc p); ("Kind", lit_doc k); ("Value", string_doc v)]
    | GParen l x r => struct "ast.ParenExpr" [("Lparen", pos_doc l); ("X", field x); ("Rparen", pos_doc r)]
    | GUnary p o x => struct "ast.UnaryExpr" [("OpPos", pos_doc p); ("Op", tok_doc o); ("X", field x)]
    | GBinary x p o y => struct "ast.BinaryExpr" [("X", field x); ("OpPos", pos_doc p); ("Op", tok_doc o); ("Y", field y)]
    | GCall f l args el r =>
        struct "ast.CallExpr" [("Fun", field f); ("Lparen", pos_doc l); ("Args", some_slice "[]ast.Expr" (map gexpr_doc args));
                               ("Ellipsis", pos_doc el); ("Rparen", pos_doc r)]
    | GStar p x => struct "ast.StarExpr" [("Star", pos_doc p); ("X", field x)]
    | GSelector x p s => struct "ast.SelectorExpr" [("X", field x); ("Sel", Some (ident_doc p s))]
    | GOther _ => Leaf []                    (* not specified *)
    | GNil => Leaf (str "nil")
    end%string.
  Definition expr_doc (e : gexpr) : doc :=
    struct "ast.Expr" [("Expr"%string, match e with GNil => None | _ => Some (gexpr_doc e) end)].

  Definition part_doc (p : oppart) : doc :=
    match p with
    | PCode c => Leaf c
    | PAlt a => slice "ast.OpcodeAlt" (map Leaf a)
    | PNilPart => Leaf (str "nil")
    end.
  Definition op_doc (o : op) : doc :=
    match o with
    | Opcode c => Leaf c
    | OpcodeParts ps => slice "ast.OpcodeParts" (map part_doc ps)
    | NilOp => Leaf (str "nil")
    end.
  Fixpoint value_doc (v : value) : doc :=
    match v with
    | SExp s =>
        struct "ast.SExpr" [("Binding", Some (Leaf (s_binding s)));
          ("Op", match s_op s with NilOp => None | o => Some (op_doc o) end);
          ("Type", Some (Leaf (s_type s)));
          ("AuxInt", option_map expr_doc (s_auxint s)); ("Aux", option_map expr_doc (s_aux s));
          ("Args", some_slice "[]ast.Value" (map value_doc (s_args s)));
          ("Ellipsis", bool_doc (s_ellipsis s)); ("Trailing", bool_doc (s_trailing s))]
    | EVal e => expr_doc e
    | Var x => Leaf x
    | NilValue => Leaf (str "nil")
    end%string.
  Definition rule_doc (r : rule) : doc :=
    let field v := match v with NilValue => None | _ => Some (value_doc v) end in
    struct "ast.Rule" [("Match", field (r_match r)); ("Condition", option_map expr_doc (r_cond r));
                       ("Block", string_doc (r_block r)); ("Result", field (r_result r))]%string.
  Definition file_doc (f : file) : doc :=
    struct "ast.File" [("Rules"%string, some_slice "[]*ast.Rule" (map rule_doc (f_rules f)))].

  Definition node_doc (n : node) : doc :=
    match n with
    | NFile f => file_doc f
    | NRule r => rule_doc r
    | NSExpr s => value_doc (SExp s)
    | NExpr e => expr_doc e
    | NVar x => Leaf x
    | NOpcode c => Leaf c
    | NParts ps => op_doc (OpcodeParts ps)
    | NAlt a => part_doc (PAlt a)
    | NNil => Leaf (str "nil")
    end.
  Definition dump_page (n : node) : text := page 0 (doc_lines 0 [] (node_doc n)).
End Docs.

(** ** The trees that are specified: those whose Go expressions are of the kinds that
    parsing accepts. *)
Definition plain_opt (e : option gexpr) : Prop := match e with Some e => supported e | None => True end.
Fixpoint plain_value (v : value) : Prop :=
  match v with
  | SExp s => plain_opt (s_auxint s) /\ plain_opt (s_aux s) /\
      fold_right (fun a P => plain_value a /\ P) True (s_args s)
  | EVal e => supported e
  | _ => True
  end.
Definition plain_rule (r : rule) : Prop := plain_value (r_match r) /\ plain_opt (r_cond r) /\ plain_value (r_result r).
Definition plain_node (n : node) : Prop :=
  match n with
  | NFile f => Forall plain_rule (f_rules f)
  | NRule r => plain_rule r
  | NSExpr s => plain_value (SExp s)
  | NExpr e => supported e
  | _ => True
  end.

(** ** Writers *)
(** Giving a writer one chunk after the other, up to its first error. *)
Fixpoint feed {W} (write : W -> text -> W * option text) (chunks : list text) (w : W) : W * option text :=
  match chunks with
  | [] => (w, None)
  | c :: cs => match write w c with (w', None) => feed write cs w' | (w', Some e) => (w', Some e) end
  end.

(** ** Trees whose dumps can be told apart (C59) *)
(** One line that does not end in a brace. *)
Definition tidy (t : text) : Prop := ~ In nl t /\ last t sp <> "{"%char /\ last t sp <> "}"%char.
Definition dump_part (p : oppart) : Prop :=
  match p with PCode c => tidy c | PAlt a => a <> [] /\ Forall tidy a | PNilPart => False end.
Definition dump_op (o : op) : Prop :=
  match o with Opcode c => tidy c | OpcodeParts ps => ps <> [] /\ Forall dump_part ps | NilOp => True end.
Inductive dump_value : value -> Prop :=
| dump_sexpr s : tidy (s_binding s) -> dump_op (s_op s) -> ~ In nl (s_type s) ->
    plain_opt (s_auxint s) -> plain_opt (s_aux s) -> Forall dump_value (s_args s) -> dump_value (SExp s)
| dump_expr e : supported e -> dump_value (EVal e)
| dump_var x : tidy x -> dump_value (Var x).
Definition dump_rule (r : rule) : Prop := dump_value (r_match r) /\ plain_opt (r_cond r) /\ dump_value (r_result r).
Definition dump_node (n : node) : Prop :=
  match n with
  | NFile f => Forall dump_rule (f_rules f)
  | NRule r => dump_rule r
  | NSExpr s => dump_value (SExp s)
  | NExpr e => supported e
  | _ => False
  end.

(** No type annotation spans several lines. *)
Fixpoint one_line_types (v : value) : Prop :=
  match v with
  | SExp s => ~ In nl (s_type s) /\ fold_right (fun a P => one_line_types a /\ P) True (s_args s)
  | _ => True
  end.

(** ** Go's string literals *)
Definition hex_digits : text := str "0123456789abcdef".
(** The number that lower-case hexadecimal digits stand for. *)
Inductive hex_number : text -> N -> Prop :=
| hex_none : hex_number [] 0
| hex_more t n i c : hex_number t n -> nth_error hex_digits i = Some c -> hex_number (t ++ [c]) (16 * n + N.of_nat i).
Definition escapes : list (ascii * N) :=
  [("a"%char, 7); ("b"%char, 8); ("f"%char, 12); ("n"%char, 10); ("r"%char, 13); ("t"%char, 9); ("v"%char, 11); ("\"%char, 92); (dquote, 34)]%N.
(** What may stand between the quotes, and for which bytes. *)
Inductive spells : text -> text -> Prop :=
| spells_nil : spells [] []
| spells_raw c t s : c <> dquote -> c <> "\"%char -> c <> nl -> spells t s -> spells (c :: t) (c :: s)
| spells_escape e n t s : In (e, n) escapes -> spells t s -> spells (("\"%char :: e :: t)) (ascii_of_N n :: s)
| spells_byte h n t s : List.length h = 2 -> hex_number h n -> spells t s -> spells (str "\x" ++ h ++ t) (ascii_of_N n :: s)
| spells_u h n k t s : List.length h = 4 -> hex_number h n -> utf8_char k -> decode_rune k = (n, List.length k) -> spells t s -> spells (str "\u" ++ h ++ t) (k ++ s)
| spells_U h n k t s : List.length h = 8 -> hex_number h n -> utf8_char k -> decode_rune k = (n, List.length k) -> spells t s -> spells (str "\U" ++ h ++ t) (k ++ s).
