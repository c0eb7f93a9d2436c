(** What counts in the operands of an s-expression: the last type, the last auxint, the
    last aux, and the arguments in order. *)
From Verif Require Import Text Ast SpecLayout.

Inductive essence :=
| Atom (t : text)
| Sexp (binding : text) (o : op) (type auxint aux : option text) (args : list essence) (ellipsis trailing : bool).

Definition last_of (pick : loperand -> option text) : loperands -> option text :=
  fix go l := match l with
              | LNone => None
              | LMore _ x rest => match go rest with Some t => Some t | None => pick x end
              end.
Definition type_text (x : loperand) : option text := match x with LType t => Some t | _ => None end.
Definition auxint_text (x : loperand) : option text := match x with LAuxInt t => Some t | _ => None end.
Definition aux_text (x : loperand) : option text := match x with LAux t => Some t | _ => None end.
Definition present {A} (o : option A) : bool := match o with Some _ => true | None => false end.

Fixpoint value_essence (v : lvalue) : essence :=
  match v with
  | LAtom t => Atom t
  | LSexp b w o ops ell trl w' =>
      Sexp b o (last_of type_text ops) (last_of auxint_text ops) (last_of aux_text ops) (args_essence ops) (present ell) (present trl)
  end
with args_essence (l : loperands) : list essence :=
  match l with LNone => [] | LMore _ x rest => operand_essence x ++ args_essence rest end
with operand_essence (x : loperand) : list essence :=
  match x with LArg v => [value_essence v] | _ => [] end.
Definition rule_essence (r : lrule) : essence * option text * option text * essence :=
  (value_essence (l_match r), option_map (fun '(_, _, c) => c) (l_cond r), option_map (fun '(b, _) => b) (l_block r), value_essence (l_result r)).
