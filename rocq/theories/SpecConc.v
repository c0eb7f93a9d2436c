(** What it means to share memory safely. *)
From Verif Require Import Text GoAst Ast Walk Expand Heap HeapWalk HeapPrint Conc.
Open Scope nat_scope.
Open Scope list_scope.

(** Pointers that a cell holds. *)
Definition word_points (w : word) (p : nat) : Prop :=
  match w with WSExpr q | WExpr q | WRule q => q = Some p | WVar _ | WNil => False end.
Definition slice_points (s : slice) (p : nat) : Prop := ~ (sl_len s = 0 /\ sl_cap s = 0) /\ sl_arr s = p.
Definition points (c : cell) (p : nat) : Prop :=
  match c with
  | CSExpr s => h_op s = HParts p \/ h_auxint s = Some p \/ h_aux s = Some p \/ slice_points (h_args s) p
  | CRule r => word_points (h_match r) p \/ h_cond r = Some p \/ word_points (h_result r) p
  | CFile sl => slice_points sl p
  | CArr ws => exists w, In w ws /\ word_points w p
  | CExpr _ | CParts _ => False
  end.
Definition is_file (c : cell) : Prop := match c with CFile _ => True | _ => False end.
(** No pointer dangles, and none leads to an ast.File: no type in ast/ast.go holds a *File. *)
Definition closed (h : heap) : Prop :=
  forall a c p, nth_error h a = Some c -> points c p -> exists d, nth_error h p = Some d /\ ~ is_file d.

(** The calls make sense: files are files, rules are rules, no two calls expand the same
    file, and none prints a file that another one expands. *)
Definition call_ok (h : heap) (c : call) : Prop :=
  match c with
  | CallExpand _ _ f => exists sl, nth_error h f = Some (CFile sl)
  | CallHas _ _ r | CallGenerate _ r => exists c, nth_error h r = Some c /\ ~ is_file c
  | CallPrint _ (PFile q) => forall f, q = Some f -> exists sl, nth_error h f = Some (CFile sl)
  | CallPrint _ (PWord w) => forall p, word_points w p -> exists c, nth_error h p = Some c /\ ~ is_file c
  | CallParse _ _ _ _ | CallProcess _ _ _ _ _ => True
  end.
Definition expands (c : call) : list nat := match c with CallExpand _ _ f => [f] | _ => [] end.
Definition prints (c : call) : list nat := match c with CallPrint _ (PFile (Some f)) => [f] | _ => [] end.
Definition calls_ok (h : heap) (cs : list call) : Prop := Forall (call_ok h) cs /\ NoDup (List.concat (map expands cs)) /\
  forall f, In f (List.concat (map prints cs)) -> ~ In f (List.concat (map expands cs)).

(** A data race: one goroutine writes (or makes) a cell that another one reads, writes or
    makes.  Nothing in these programs orders the accesses of different goroutines. *)
Definition address (a : access) : nat := match a with Reads p | Allocates p | Writes p => p end.
Definition changes (a : access) : Prop := match a with Reads _ => False | Allocates _ | Writes _ => True end.
Definition race (tr : list (nat * access)) : Prop :=
  exists i j a b, In (i, a) tr /\ In (j, b) tr /\ i <> j /\ changes a /\ address a = address b.

(** The feature tests, rules/rules.go, on trees (Walk.v). *)
Definition has (x : feature) (r : rule) : res bool :=
  match x with
  | FBinding => HasBinding r | FType => HasType r | FAux => HasAux r
  | FAuxInt => HasAuxInt r | FEllipsis => HasEllipsis r | FTrailing => HasTrailing r
  end.
