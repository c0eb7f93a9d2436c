(** The concrete syntax of trees, as pure text, and which trees have none.
    Independent of the printer's code. *)
From Verif Require Import Text GoAst Ast.

(** [sep]-separated concatenation. *)
Fixpoint sep_by (sep : text) (l : list text) : text :=
  match l with
  | [] => []
  | [t] => t
  | t :: l' => t ++ sep ++ sep_by sep l'
  end.

(** Logical and comparison operators are surrounded by blanks, arithmetic ones
    are not. *)
Definition spaced (o : gotok) : bool :=
  match o with
  | LOR | LAND | EQL | NEQ | LSS | LEQ | GTR | GEQ | NOT | ARROW | TILDE => true
  | _ => false
  end.
Definition op_text (o : gotok) : text :=
  if spaced o then str " " ++ tok_string o ++ str " " else tok_string o.

(** Text of a Go expression. *)
Fixpoint go_text (e : gexpr) : text :=
  match e with
  | GIdent _ x => x
  | GBasicLit _ _ v => v
  | GParen _ x _ => str "(" ++ go_text x ++ str ")"
  | GUnary _ o x => tok_string o ++ go_text x
  | GBinary x _ o y => go_text x ++ op_text o ++ go_text y
  | GCall f _ args _ _ => go_text f ++ str "(" ++ sep_by (str ", ") (map go_text args) ++ str ")"
  | GStar _ x => str "*" ++ go_text x
  | GSelector x _ sel => go_text x ++ str "." ++ sel
  | GOther _ | GNil => []
  end.

(** Text of an opcode.  A group without members prints as ")" only. *)
Definition part_text (p : oppart) : text :=
  match p with
  | PCode c => c
  | PAlt [] => str ")"
  | PAlt alts => str "(" ++ sep_by (str "|") alts ++ str ")"
  | PNilPart => []
  end.
Definition opcode_text (o : op) : text :=
  match o with Opcode c => c | OpcodeParts ps => List.concat (map part_text ps) | NilOp => [] end.

Definition when (b : bool) (t : text) : text := if b then t else [].
Definition if_given (t : text) (f : text -> text) : text := match t with [] => [] | _ => f t end.
Definition if_set (o : option gexpr) (f : gexpr -> text) : text := match o with None => [] | Some e => f e end.

(** Text of a value: binding, opcode, type, auxint, aux, arguments, flags. *)
Fixpoint value_text (v : value) : text :=
  match v with
  | SExp s =>
      if_given (s_binding s) (fun b => b ++ str ":") ++ str "(" ++ opcode_text (s_op s) ++
      if_given (s_type s) (fun t => str " <" ++ t ++ str ">") ++
      if_set (s_auxint s) (fun e => str " [" ++ go_text e ++ str "]") ++
      if_set (s_aux s) (fun e => str " {" ++ go_text e ++ str "}") ++
      List.concat (map (fun a => str " " ++ value_text a) (s_args s)) ++
      when (s_ellipsis s) (str " ...") ++ when (s_trailing s) (str " ___") ++ str ")"
  | EVal e => go_text e
  | Var x => x
  | NilValue => []
  end.

(** Text of a rule and of a file. *)
Definition rule_text (r : rule) : text :=
  value_text (r_match r) ++ if_set (r_cond r) (fun e => str " && " ++ go_text e) ++ str " => " ++
  if_given (r_block r) (fun b => str "@" ++ b ++ str " ") ++ value_text (r_result r).
Definition file_text (f : file) : text := List.concat (map (fun r => rule_text r ++ [nl]) (f_rules f)).

Definition node_text (n : node) : text :=
  match n with
  | NFile f => file_text f
  | NRule r => rule_text r
  | NSExpr s => value_text (SExp s)
  | NExpr e => value_text (EVal e)
  | NVar x => x
  | NOpcode c => c
  | NParts ps => opcode_text (OpcodeParts ps)
  | NAlt _ | NNil => []
  end.

(** The type names of the parts that have no syntax, in reading order: nil
    interfaces and Go expressions outside the supported node types. *)
Fixpoint go_bad (e : gexpr) : list text :=
  match e with
  | GIdent _ _ | GBasicLit _ _ _ => []
  | GParen _ x _ | GUnary _ _ x | GStar _ x | GSelector x _ _ => go_bad x
  | GBinary x _ _ y => go_bad x ++ go_bad y
  | GCall f _ args _ _ => go_bad f ++ flat_map go_bad args
  | GOther t => [t]
  | GNil => [str "<nil>"]
  end.
Definition nil_name : text := str "<nil>".
Definition part_bad (p : oppart) : list text := match p with PNilPart => [nil_name] | _ => [] end.
Definition op_bad (o : op) : list text :=
  match o with Opcode _ => [] | OpcodeParts ps => flat_map part_bad ps | NilOp => [nil_name] end.
Definition opt_bad (o : option gexpr) : list text := match o with None => [] | Some e => go_bad e end.
Fixpoint value_bad (v : value) : list text :=
  match v with
  | SExp s => op_bad (s_op s) ++ opt_bad (s_auxint s) ++ opt_bad (s_aux s) ++ flat_map value_bad (s_args s)
  | EVal e => go_bad e
  | Var _ => []
  | NilValue => [nil_name]
  end.
Definition rule_bad (r : rule) : list text :=
  value_bad (r_match r) ++ opt_bad (r_cond r) ++ value_bad (r_result r).
Definition node_bad (n : node) : list text :=
  match n with
  | NFile f => flat_map rule_bad (f_rules f)
  | NRule r => rule_bad r
  | NSExpr s => value_bad (SExp s)
  | NExpr e => go_bad e
  | NVar _ | NOpcode _ => []
  | NParts ps => op_bad (OpcodeParts ps)
  | NAlt _ => [str "ast.OpcodeAlt"]   (* an OpcodeAlt is only printable as a part *)
  | NNil => [nil_name]
  end.

(** Handing [pieces] to a writer one by one, stopping at the first error. *)
Fixpoint feed {W} (write : W -> text -> W * option text) (w : W) (pieces : list text) : W * option text :=
  match pieces with
  | [] => (w, None)
  | t :: rest =>
      match write w t with
      | (w', None) => feed write w' rest
      | (w', Some e) => (w', Some e)
      end
  end.
Definition prefix (p t : text) : Prop := exists q, t = p ++ q.
