(** Instances of rules, and rewriting with them. *)
From Verif Require Import Text GoAst Ast SpecSmt.

(** The tree with its variables replaced as [f] says, all at once. *)
Fixpoint instance (f : text -> value) (v : value) : value :=
  match v with
  | Var x => f x
  | SExp s => SExp (mkSExpr (s_binding s) (s_op s) (s_type s) (s_auxint s) (s_aux s)
                            (map (instance f) (s_args s)) (s_ellipsis s) (s_trailing s))
  | _ => v
  end.
Definition rule_instance (f : text -> value) (r : rule) : rule :=
  mkRule (instance f (r_match r)) (r_cond r) (r_block r) (instance f (r_result r)).
(** The rule with its variables renamed. *)
Definition renamed (f : text -> text) (r : rule) : rule := rule_instance (fun x => Var (f x)) r.

(** Renaming in scripts. *)
Fixpoint term_renamed (f : text -> text) (t : term) : term :=
  match t with TConst x => TConst (f x) | TApp g args => TApp g (map (term_renamed f) args) end.
Definition command_renamed (f : text -> text) (c : command) : command :=
  match c with
  | DeclareConst x s => DeclareConst (f x) s
  | Assert t => Assert (term_renamed f t)
  | c => c
  end.

(** One rewriting step: somewhere in the tree an instance of the match becomes the
    same instance of the result. *)
Inductive rewrites (r : rule) : value -> value -> Prop :=
| rw_here f : rewrites r (instance f (r_match r)) (instance f (r_result r))
| rw_inside b o t ai a pre x y post el tr :
    rewrites r x y ->
    rewrites r (SExp (mkSExpr b o t ai a (pre ++ x :: post) el tr)) (SExp (mkSExpr b o t ai a (pre ++ y :: post) el tr)).

(** Any number of steps, with any of the rules. *)
Inductive rewrites_with (rules : list rule) : value -> value -> Prop :=
| rw_done v : rewrites_with rules v v
| rw_step r u v w : In r rules -> rewrites r u v -> rewrites_with rules v w -> rewrites_with rules u w.

(** The two trees have the same type and always the same value. *)
Definition same_meaning (G : text -> ty) (v w : value) : Prop :=
  (forall t, typed G v t -> typed G w t) /\
  forall t rho, typed G v t -> (forall x, in_type (G x) (rho x)) ->
    exists a, meaning rho v = Some a /\ meaning rho w = Some a.
