(** Sources with their layout: the white space and comments between words kept apart
    from the words. *)
From Verif Require Import Text GoAst Ast SpecPrint SpecSyntax.

(** A value: an atom (variable, placeholder, call) or an s-expression.  Each [w] is layout. *)
Inductive lvalue :=
| LAtom (t : text)
| LSexp (binding w : text) (o : op) (ops : loperands) (ellipsis trailing : option text) (w' : text)
with loperands :=
| LNone
| LMore (w : text) (x : loperand) (rest : loperands)
with loperand :=
| LType (t : text) | LAuxInt (t : text) | LAux (t : text) | LArg (v : lvalue).

Record lrule := mkL {
  l_before : text;                              (* layout before the rule *)
  l_match : lvalue;
  l_cond : option (text * text * text);         (* layout, layout, condition *)
  l_left : text; l_right : text;                (* layout around the arrow *)
  l_block : option (text * text);               (* block, layout *)
  l_result : lvalue }.
Record lfile := mkLF { l_rules : list lrule; l_end : text }.

(** The text. *)
Definition given {A} (o : option A) (f : A -> text) : text := match o with None => [] | Some a => f a end.
Fixpoint value_source (v : lvalue) : text :=
  match v with
  | LAtom t => t
  | LSexp b w o ops ell trl w' =>
      if_given b (fun b => b ++ str ":") ++ str "(" ++ w ++ opcode_text o ++ operands_source ops ++
      given ell (fun u => u ++ str "...") ++ given trl (fun u => u ++ str "___") ++ w' ++ str ")"
  end
with operands_source (l : loperands) : text :=
  match l with LNone => [] | LMore w x rest => w ++ operand_source x ++ operands_source rest end
with operand_source (x : loperand) : text :=
  match x with
  | LType t => str "<" ++ t ++ str ">"
  | LAuxInt t => str "[" ++ t ++ str "]"
  | LAux t => str "{" ++ t ++ str "}"
  | LArg v => value_source v
  end.
Definition rule_source (r : lrule) : text :=
  l_before r ++ value_source (l_match r) ++ given (l_cond r) (fun '(w, w', c) => w ++ str "&&" ++ w' ++ c) ++
  l_left r ++ str "=>" ++ l_right r ++ given (l_block r) (fun '(b, w) => str "@" ++ b ++ w) ++ value_source (l_result r).
Definition file_source (f : lfile) : text := List.concat (map rule_source (l_rules f)) ++ l_end f.

(** The words alone: every layout emptied.  Two sources with the same words differ in
    layout only. *)
Fixpoint value_words (v : lvalue) : lvalue :=
  match v with
  | LAtom t => LAtom t
  | LSexp b w o ops ell trl w' =>
      LSexp b [] o (operands_words ops) (option_map (fun _ => []) ell) (option_map (fun _ => []) trl) []
  end
with operands_words (l : loperands) : loperands :=
  match l with LNone => LNone | LMore w x rest => LMore [] (operand_words x) (operands_words rest) end
with operand_words (x : loperand) : loperand :=
  match x with LArg v => LArg (value_words v) | _ => x end.
Definition rule_words (r : lrule) : lrule :=
  mkL [] (value_words (l_match r)) (option_map (fun '(w, w', c) => ([], [], c)) (l_cond r)) [] []
      (option_map (fun '(b, w) => (b, [])) (l_block r)) (value_words (l_result r)).
Definition file_words (f : lfile) : list lrule := map rule_words (l_rules f).

(** Layout is white space and comments; some where words would run together. *)
Definition opt_all {A} (P : A -> Prop) (o : option A) : Prop := match o with Some a => P a | None => True end.
Fixpoint laid_value (v : lvalue) : Prop :=
  match v with
  | LAtom t => True
  | LSexp b w o ops ell trl w' => ws w /\ laid_operands ops /\ opt_all ws1 ell /\ opt_all ws1 trl /\ ws w'
  end
with laid_operands (l : loperands) : Prop :=
  match l with LNone => True | LMore w x rest => ws1 w /\ laid_operand x /\ laid_operands rest end
with laid_operand (x : loperand) : Prop :=
  match x with LArg v => laid_value v | _ => True end.
(** Before the arrow after a condition there are blanks and no comments; a block ends at a blank other than
    a newline. *)
Definition begins (P : ascii -> Prop) (w : text) : Prop := exists c w', w = c :: w' /\ P c.
Definition laid_rule (r : lrule) : Prop :=
  ws (l_before r) /\ laid_value (l_match r) /\
  opt_all (fun '(w, w', c) => ws1 w /\ ws1 w' /\ l_left r <> [] /\ Forall blank (l_left r)) (l_cond r) /\
  ws (l_left r) /\ ws (l_right r) /\
  opt_all (fun '(b, w) => ws w /\ begins block_stop w) (l_block r) /\
  laid_value (l_result r).
Definition laid_rules (f : lfile) : Prop :=
  Forall laid_rule (l_rules f) /\ ws (l_end f) /\ (l_rules f = [] -> l_end f = []).
(** ... and there is some layout between rules. *)
Definition laid_file (f : lfile) : Prop :=
  laid_rules f /\ Forall (fun r => l_before r <> []) (tl (l_rules f)).

(** The words are words of the language. *)
Section Words.
  Variable gp : text -> res gexpr.
  Fixpoint word_value (v : lvalue) : Prop :=
    match v with
    | LAtom t => exists x, expr_form gp t x
    | LSexp b w o ops ell trl w' => (b = [] \/ ident b) /\ op_wf o /\ word_operands ops
    end
  with word_operands (l : loperands) : Prop :=
    match l with LNone => True | LMore w x rest => word_operand x /\ word_operands rest end
  with word_operand (x : loperand) : Prop :=
    match x with
    | LType t => t <> [] /\ ~ In ">"%char t
    | LAuxInt t => t <> [] /\ ~ In "]"%char t /\ exists e, reads gp t e
    | LAux t => t <> [] /\ ~ In "}"%char t /\ exists e, reads gp t e
    | LArg v => word_value v
    end.
  Definition word_cond (c : text) : Prop :=
    ~ begins blank c /\ (forall t, c <> str "//" ++ t) /\ (forall x y, c = x ++ str "=>" ++ y -> x = []) /\ c <> [] /\ exists e, reads_cond gp c e.
  Definition word_rule (r : lrule) : Prop :=
    word_value (l_match r) /\ opt_all (fun '(_, _, c) => word_cond c) (l_cond r) /\
    opt_all (fun '(b, _) => b <> [] /\ Forall (fun c => ~ block_stop c) b) (l_block r) /\ word_value (l_result r).
End Words.
