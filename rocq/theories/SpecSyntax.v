(** The written forms of a rules file: which texts stand for which trees.  A
    declarative grammar, independent of the parser engine and its tables. *)
From Verif Require Import Text GoAst Ast SpecPrint SpecTrim.
From Coq Require Import NArith.

(** * Characters and words *)
Definition lower (c : ascii) : Prop := in_range "a" "z" c = true.
Definition word_char (c : ascii) : Prop :=
  c = "_"%char \/ in_range "a" "z" c = true \/ in_range "A" "Z" c = true \/ in_range "0" "9" c = true.
Definition word (t : text) : Prop := t <> [] /\ Forall word_char t.
(** Variables, bindings and function names. *)
Definition ident (t : text) : Prop := exists c t', t = c :: t' /\ lower c /\ Forall word_char t'.

(** * White space and comments *)
Definition blank (c : ascii) : Prop := c = sp \/ c = tab \/ c = cr \/ c = nl.
Inductive skip : text -> Prop :=
| skip_blank c : blank c -> skip [c]
| skip_comment a : ~ In nl a -> skip (str "//" ++ a ++ [nl]).
Inductive ws : text -> Prop :=
| ws_nil : ws []
| ws_cons k t : skip k -> ws t -> ws (k ++ t).
Definition ws1 (t : text) : Prop := ws t /\ t <> [].
(** Neither white space nor a complete comment starts here. *)
Definition no_skip (t : text) : Prop := forall k t', t = k ++ t' -> ~ skip k.
(** The next character, if any, is not one of those. *)
Definition not_next (P : ascii -> Prop) (t : text) : Prop := forall c t', t = c :: t' -> ~ P c.

(** * Opcodes *)
Definition part_wf (p : oppart) : Prop :=
  match p with
  | PCode c => word c
  | PAlt alts => (2 <= List.length alts)%nat /\ Forall word alts
  | PNilPart => False
  end.
Fixpoint parts_apart (ps : list oppart) : Prop :=   (* no two plain parts in a row *)
  match ps with
  | PCode _ :: ((PCode _ :: _) as ps') => False
  | _ :: ps' => parts_apart ps'
  | [] => True
  end.
Definition op_wf (o : op) : Prop :=
  match o with
  | Opcode c => word c
  | OpcodeParts ps => ps <> [] /\ Forall part_wf ps /\ parts_apart ps /\ (forall c, ps <> [PCode c])
  | NilOp => False
  end.

(** * Go expressions *)
(** No node of a type outside the supported ones. *)
Fixpoint supported (e : gexpr) : Prop :=
  match e with
  | GIdent _ _ | GBasicLit _ _ _ | GNil => True
  | GParen _ x _ | GUnary _ _ x | GStar _ x | GSelector x _ _ => supported x
  | GBinary x _ _ y => supported x /\ supported y
  | GCall f _ args _ _ => supported f /\ fold_right (fun a P => supported a /\ P) True args
  | GOther _ => False
  end.
(** The same expression without source positions (which include the "..." of a call). *)
Fixpoint bare (e : gexpr) : gexpr :=
  match e with
  | GIdent _ n => GIdent 0 n
  | GBasicLit _ k v => GBasicLit 0 k v
  | GParen _ x _ => GParen 0 (bare x) 0
  | GUnary _ o x => GUnary 0 o (bare x)
  | GBinary x _ o y => GBinary (bare x) 0 o (bare y)
  | GCall f _ args _ _ => GCall (bare f) 0 (map bare args) 0 0
  | GStar _ x => GStar 0 (bare x)
  | GSelector x _ s => GSelector (bare x) 0 s
  | GOther t => GOther t
  | GNil => GNil
  end%N.

Definition one_line (t : text) : text := map (fun c => if ascii_dec c nl then sp else c) t.

Section Forms.
  (** Go's expression parser. *)
  Variable gp : text -> res gexpr.

  (** [t] is the text of the Go expression [e]. *)
  Definition reads (t : text) (e : gexpr) : Prop := exists raw, gp t = Ok raw /\ supported raw /\ e = bare raw.

  (** ... of a condition: with newlines replaced by blanks and outer white space removed. *)
  Definition reads_cond (c : text) (e : gexpr) : Prop := exists t, trimmed (one_line c) t /\ reads t e.

  (** Calls, variables and the placeholder.  Calls inside calls are read too. *)
  Inductive expr_form : text -> value -> Prop :=
  | expr_call t e : call_form t -> reads t e -> expr_form t (EVal e)
  | expr_var x : ident x -> expr_form x (Var x)
  | expr_hole : expr_form (str "_") (Var (str "_"))
  with call_form : text -> Prop :=
  | call_intro f w a v more w' : ident f -> ws w -> expr_form a v -> more_args more -> ws w' ->
      call_form (f ++ str "(" ++ w ++ a ++ more ++ w' ++ str ")")
  with more_args : text -> Prop :=
  | more_nil : more_args []
  | more_cons w1 w2 a v more : ws w1 -> ws w2 -> expr_form a v -> more_args more ->
      more_args (w1 ++ str "," ++ w2 ++ a ++ more).

  (** Operands of an s-expression, and what a sequence of them means. *)
  Inductive operand := OType (t : text) | OAuxInt (e : gexpr) | OAux (e : gexpr) | OArg (v : value).
  Definition types_of (l : list operand) : list text := flat_map (fun o => match o with OType t => [t] | _ => [] end) l.
  Definition auxints_of (l : list operand) : list gexpr := flat_map (fun o => match o with OAuxInt e => [e] | _ => [] end) l.
  Definition auxs_of (l : list operand) : list gexpr := flat_map (fun o => match o with OAux e => [e] | _ => [] end) l.
  Definition args_of (l : list operand) : list value := flat_map (fun o => match o with OArg v => [v] | _ => [] end) l.
  Definition assemble (b : text) (o : op) (l : list operand) (el tr : bool) : sexpr :=
    mkSExpr b o (last (types_of l) []) (last (map Some (auxints_of l)) None) (last (map Some (auxs_of l)) None)
            (args_of l) el tr.

  (** An optional marker after white space. *)
  Inductive flag_form (marker : text) : text -> bool -> Prop :=
  | flag_off : flag_form marker [] false
  | flag_on w : ws1 w -> flag_form marker (w ++ marker) true.

  Inductive value_form : text -> value -> Prop :=
  | value_expr t v : expr_form t v -> value_form t v
  | value_sexpr b w o opst ops ell el trl tr w' :
      b = [] \/ ident b -> ws w -> op_wf o -> operands_form opst ops ->
      flag_form (str "...") ell el -> flag_form (str "___") trl tr -> ws w' ->
      value_form (if_given b (fun b => b ++ str ":") ++ str "(" ++ w ++ opcode_text o ++ opst ++ ell ++ trl ++ w' ++ str ")")
                 (SExp (assemble b o ops el tr))
  with operands_form : text -> list operand -> Prop :=
  | operands_nil : operands_form [] []
  | operands_cons w t x rest xs : ws1 w -> operand_form t x -> operands_form rest xs ->
      operands_form (w ++ t ++ rest) (x :: xs)
  with operand_form : text -> operand -> Prop :=
  | operand_type t : t <> [] -> ~ In ">"%char t -> operand_form (str "<" ++ t ++ str ">") (OType t)
  | operand_auxint t e : t <> [] -> ~ In "]"%char t -> reads t e -> operand_form (str "[" ++ t ++ str "]") (OAuxInt e)
  | operand_aux t e : t <> [] -> ~ In "}"%char t -> reads t e -> operand_form (str "{" ++ t ++ str "}") (OAux e)
  | operand_value t v : value_form t v -> operand_form t (OArg v).

  (** The condition between the match and the arrow; [after] is the rest of the
      source from the blank before "=>" on. *)
  Inductive cond_form (after : text) : text -> option gexpr -> Prop :=
  | cond_none : cond_form after [] None
  | cond_some w w' c e b after' :
      ws1 w -> ws1 w' -> c <> [] -> no_skip (c ++ after) ->
      (forall x y, c = x ++ str "=>" ++ y -> x = []) ->
      after = b :: str "=>" ++ after' -> blank b ->
      reads_cond c e ->
      cond_form after (w ++ str "&&" ++ w' ++ c) (Some e).

  (** The block: any characters but blank, tab and carriage return; one of these
      must follow. *)
  Definition block_stop (c : ascii) : Prop := c = sp \/ c = tab \/ c = cr.
  Inductive block_form (after : text) : text -> text -> Prop :=
  | block_none : block_form after [] []
  | block_some b c after' : b <> [] -> Forall (fun c => ~ block_stop c) b -> after = c :: after' -> block_stop c ->
      block_form after (str "@" ++ b) b.

  (** Where a result value may end: a variable not before a word character nor
      before something that makes it a call, a placeholder not before "_". *)
  Definition value_end (t after : text) : Prop :=
    (ident t -> not_next word_char after /\
       forall w a w' after', ws w -> ident a \/ a = str "_" -> ws w' -> after <> str "(" ++ w ++ a ++ w' ++ str ")" ++ after') /\
    (t = str "_" -> not_next (eq "_"%char) after).

  (** A rule, followed by [after] in the source. *)
  Inductive rule_form (after : text) : text -> rule -> Prop :=
  | rule_intro m vm ct c w1 w2 bt b w3 res vr :
      value_form m vm ->
      cond_form (w1 ++ str "=>" ++ w2 ++ bt ++ w3 ++ res ++ after) ct c ->
      ws w1 -> ws w2 ->
      block_form (w3 ++ res ++ after) bt b ->
      ws w3 -> value_form res vr -> value_end res after ->
      rule_form after (m ++ ct ++ w1 ++ str "=>" ++ w2 ++ bt ++ w3 ++ res) (mkRule vm c b vr).

  (** A source: nothing at all, or rules with white space and comments around them. *)
  Inductive source_form : text -> list rule -> Prop :=
  | source_nil : source_form [] []
  | source_cons w t w' rest r rs : ws w -> ws w' -> rule_form (w' ++ rest) t r -> source_form rest rs ->
      source_form (w ++ t ++ w' ++ rest) (r :: rs).
End Forms.

Scheme expr_form_ind2 := Induction for expr_form Sort Prop
  with call_form_ind2 := Induction for call_form Sort Prop
  with more_args_ind2 := Induction for more_args Sort Prop.
Combined Scheme expr_forms_ind from expr_form_ind2, call_form_ind2, more_args_ind2.
Scheme value_form_ind2 := Induction for value_form Sort Prop
  with operands_form_ind2 := Induction for operands_form Sort Prop
  with operand_form_ind2 := Induction for operand_form Sort Prop.
Combined Scheme value_forms_ind from value_form_ind2, operands_form_ind2, operand_form_ind2.
