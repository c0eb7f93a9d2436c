(** Model of pass/alt.go on a heap: pointers, slices with shared backing arrays, and
    append.  Expand.v models the same functions on trees; HeapFacts.v relates the
    two.  Simplifications: Go expressions (ast.Expr) are opaque cells; the slices
    inside an opcode are read in one go; []ast.Opcode and [][]ast.Value slices,
    which never leave the function that makes them, are lists. *)
From Verif Require Import Text GoAst Ast Expand.
From Coq Require Import Arith Bool.
Open Scope res_scope.

(** *T, for the pointers of ast/ast.go:14-43. *)
Definition ptr := option nat.   (* None is nil *)
(** An element of a slice: a value (ast.Value, ast/ast.go:29-32) or a *ast.Rule. *)
Inductive word := WSExpr (p : ptr) | WExpr (p : ptr) | WVar (x : text) | WNil | WRule (p : ptr).
(** A slice header: array, offset, length, capacity (Go's slices, as used by pass/alt.go). *)
Record slice := { sl_arr : nat; sl_off : nat; sl_len : nat; sl_cap : nat }.
(** The nil slice. *)
Definition nil_slice : slice := {| sl_arr := 0; sl_off := 0; sl_len := 0; sl_cap := 0 |}.
(** ast.Op, ast/ast.go:48-72; an OpcodeParts is a slice, held in one cell. *)
Inductive hop := HOpcode (c : text) | HParts (arr : nat) | HNilOp.
(** ast.SExpr, ast.Rule (ast/ast.go:34-43, 20-25) with pointers and slices. *)
Record hsexpr := { h_binding : text; h_op : hop; h_type : text; h_auxint : ptr; h_aux : ptr;
                   h_args : slice; h_ellipsis : bool; h_trailing : bool }.
(** ast.Rule, ast/ast.go:20-25. *)
Record hrule := { h_match : word; h_cond : ptr; h_block : text; h_result : word }.
(** What memory has at an address: a struct of ast/ast.go, an ast.Expr, or an array. *)
Inductive cell :=
| CSExpr (s : hsexpr) | CExpr (e : gexpr) | CRule (r : hrule) | CFile (rules : slice)
| CArr (ws : list word) | CParts (ps : list oppart).
(** Memory. *)
Definition heap := list cell.   (* the address is the index; nothing is freed *)

(** A program is a tree of accesses to memory: it is done, or it reads a cell, or makes a
    new one, or writes one, and goes on with what it got.  Conc.v runs several of these
    at once (pass/alt.go:10-195). *)
Inductive prog (A : Type) : Type :=
| Done (r : res A)
| Load (p : nat) (k : option cell -> prog A)
| New (c : cell) (k : nat -> prog A)
| Store (p : nat) (c : cell) (k : prog A).
Arguments Done {A} r. Arguments Load {A} p k. Arguments New {A} c k. Arguments Store {A} p c k.
(** The programs of this model: Go code of pass/alt.go:10-195 and the others, as accesses to memory. *)
Definition M (A : Type) := prog A.
(** return. *)
Definition ret {A} (a : A) : M A := Done (Ok a).
(** Returning an error. *)
Definition fails {A} (e : text) : M A := Done (Err e).
(** A panic. *)
Definition panics {A} (m : text) : M A := Done (Panic m).
(** Code that does not touch memory. *)
Definition lift {A} (r : res A) : M A := Done r.
(** Statement sequence: an error or a panic ends it. *)
Fixpoint mbind {A B} (m : M A) (k : A -> M B) : M B :=
  match m with
  | Done (Ok a) => k a
  | Done (Err e) => Done (Err e)
  | Done (Panic x) => Done (Panic x)
  | Load p j => Load p (fun o => mbind (j o) k)
  | New c j => New c (fun a => mbind (j a) k)
  | Store p c j => Store p c (mbind j k)
  end.
Notation "'do' x <- m ; k" := (mbind m (fun x => k)) (at level 200, x name, m at level 100, k at level 200).

(** Memory: writing a cell, and a program run on its own, from the heap before to the heap
    after and the outcome (pass/alt.go:10-195). *)
Definition put (p : nat) (c : cell) (h : heap) : heap := firstn p h ++ c :: skipn (S p) h.
(** A store to an address that exists. *)
Definition write (p : nat) (c : cell) (h : heap) : heap := if p <? List.length h then put p c h else h.
(** Running a program alone. *)
Fixpoint run {A} (m : M A) (h : heap) : heap * res A :=
  match m with
  | Done r => (h, r)
  | Load p k => run (k (nth_error h p)) h
  | New c k => run (k (List.length h)) (h ++ [c])
  | Store p c k => run k (write p c h)
  end.
Coercion run : M >-> Funclass.

(** Allocation, and access through pointers (pass/alt.go:47,53,69,101,105,108). *)
Definition alloc (c : cell) : M nat := New c (fun a => ret a).
(** The message of the panic when a nil pointer is dereferenced. *)
Definition nil_deref : text := str "runtime error: invalid memory address or nil pointer dereference".
(** For memory that Go's types rule out. *)
Definition ill_typed : text := str "model: ill-typed heap".
(** *p. *)
Definition get (p : nat) : M cell := Load p (fun o => match o with Some c => ret c | None => panics ill_typed end).
(** *p = c. *)
Definition store (p : nat) (c : cell) : M unit := Store p c (ret tt).
(** *p for a *ast.SExpr (ast/ast.go:34-43). *)
Definition get_sexpr (p : nat) : M hsexpr := do c <- get p; match c with CSExpr s => ret s | _ => panics ill_typed end.
(** *p for a *ast.Rule (ast/ast.go:20-25). *)
Definition get_rule (p : nat) : M hrule := do c <- get p; match c with CRule r => ret r | _ => panics ill_typed end.
(** The array behind a slice. *)
Definition get_arr (p : nat) : M (list word) := do c <- get p; match c with CArr l => ret l | _ => panics ill_typed end.

(** xs[i] (pass/alt.go:54,57,117). *)
Definition at_ (sl : slice) (i : nat) : M word :=
  if i <? sl_len sl then
    do l <- get_arr (sl_arr sl);
    match nth_error l (sl_off sl + i) with Some w => ret w | None => panics ill_typed end
  else panics (str "runtime error: index out of range [" ++ dec i ++ str "] with length " ++ dec (sl_len sl)).
(** The elements of a slice, as append(x, xs...) reads them (pass/alt.go:26). *)
Definition elements (sl : slice) : M (list word) :=
  if sl_len sl =? 0 then ret [] else
  do l <- get_arr (sl_arr sl); ret (firstn (sl_len sl) (skipn (sl_off sl) l)).
(** A composite literal []T{ws...} (pass/alt.go:48,69,101). *)
Definition literal (ws : list word) : M slice :=
  do a <- alloc (CArr ws); ret {| sl_arr := a; sl_off := 0; sl_len := List.length ws; sl_cap := List.length ws |}.
(** make([]T, 0, n), where [z] is the zero value of T (pass/alt.go:51,105). *)
Definition make (z : word) (n : nat) : M slice :=
  do a <- alloc (CArr (repeat z n)); ret {| sl_arr := a; sl_off := 0; sl_len := 0; sl_cap := n |}.
(** The zero value of the type of these words: a nil *ast.Rule or a nil ast.Value (pass/alt.go:51,105). *)
Definition zero (ws : list word) : word := match ws with WRule _ :: _ => WRule None | _ => WNil end.
(** copy(l[i:], ws). *)
Definition overwrite (l : list word) (i : nat) (ws : list word) : list word :=
  firstn i l ++ ws ++ skipn (i + List.length ws) l.

Section Run.
  (** How much larger than needed append makes a new array (runtime.growslice). *)
  Variable spare : nat -> nat -> nat.

  (** append(sl, ws...): in place if the capacity allows, else into a new array (pass/alt.go:26,53,97,117,121). *)
  Definition append (sl : slice) (ws : list word) : M slice :=
    let n := sl_len sl + List.length ws in
    if n <=? sl_cap sl then
      if List.length ws =? 0 then ret sl else
      do l <- get_arr (sl_arr sl);
      do _ <- store (sl_arr sl) (CArr (overwrite l (sl_off sl + sl_len sl) ws));
      ret {| sl_arr := sl_arr sl; sl_off := sl_off sl; sl_len := n; sl_cap := sl_cap sl |}
    else
      do old <- elements sl;
      let extra := spare (sl_cap sl) n in
      do a <- alloc (CArr (old ++ ws ++ repeat (zero ws) extra));
      ret {| sl_arr := a; sl_off := 0; sl_len := n; sl_cap := n + extra |}.

  (** expandop, pass/alt.go:127-136. *)
  Definition h_expandop (o : hop) : M (list text) :=
    match o with
    | HOpcode c => lift (expandop (Opcode c))
    | HParts a => do c <- get a; match c with CParts ps => lift (expandop (OpcodeParts ps)) | _ => panics ill_typed end
    | HNilOp => lift (expandop NilOp)
    end.

  (** The argument loop, pass/alt.go:84-98; [k] arguments remain from index [j]. *)
  Fixpoint h_args_loop (expand : word -> M slice) (args : slice) (k j n : nat) : M (nat * list slice) :=
    match k with
    | 0 => ret (n, [])
    | S k' =>
        do arg <- at_ args j;
        do exparg <- expand arg;
        do n' <- lift (resolvecounts n (sl_len exparg));
        do r <- h_args_loop expand args k' (S j) n';
        ret (fst r, exparg :: snd r)
    end.

  (** "for _, alts := range expargs { args = append(args, alts[idx(i, len(alts))]) }",
      pass/alt.go:115-118. *)
  Fixpoint pick_args (expargs : list slice) (i : nat) (args : slice) : M slice :=
    match expargs with
    | [] => ret args
    | alts :: rest =>
        do w <- at_ alts (idx i (sl_len alts));
        do args' <- append args [w];
        pick_args rest i args'
    end.

  (** v.Op = ..., pass/alt.go:112, and v.Args = ..., pass/alt.go:119. *)
  Definition set_op (s : hsexpr) (o : hop) : hsexpr :=
    {| h_binding := h_binding s; h_op := o; h_type := h_type s; h_auxint := h_auxint s; h_aux := h_aux s;
       h_args := h_args s; h_ellipsis := h_ellipsis s; h_trailing := h_trailing s |}.
  (** "v.Args = args", pass/alt.go:119. *)
  Definition set_args (s : hsexpr) (a : slice) : hsexpr :=
    {| h_binding := h_binding s; h_op := h_op s; h_type := h_type s; h_auxint := h_auxint s; h_aux := h_aux s;
       h_args := a; h_ellipsis := h_ellipsis s; h_trailing := h_trailing s |}.

  (** The loop generating the alternates, pass/alt.go:106-122; [k] remain from [i]. *)
  Fixpoint alternates (s : nat) (opcodes : list text) (expargs : list slice) (k i : nat) (vs : slice) : M slice :=
    match k with
    | 0 => ret vs
    | S k' =>
        do c <- get_sexpr s;
        do v <- alloc (CSExpr c);                                   (* v := new(ast.SExpr); *v = *s *)
        do o <- lift (index opcodes (idx i (List.length opcodes)));
        do c <- get_sexpr v;
        do _ <- store v (CSExpr (set_op c (HOpcode o)));            (* v.Op = ... *)
        do args <- pick_args expargs i nil_slice;
        do c <- get_sexpr v;
        do _ <- store v (CSExpr (set_args c args));                 (* v.Args = args *)
        do vs' <- append vs [WSExpr (Some v)];
        alternates s opcodes expargs k' (S i) vs'
    end.

  (** expandvalue and expandsexpr, pass/alt.go:64-125.  The fuel bounds the depth of
      the recursion (Go's stack). *)
  Fixpoint h_expandvalue (fuel : nat) (v : word) : M slice :=
    match fuel with
    | 0 => panics (str "stack overflow")
    | S fuel' =>
        match v with
        | WSExpr None => panics nil_deref
        | WSExpr (Some s) =>
            do c <- get_sexpr s;
            do opcodes <- h_expandop (h_op c);
            do r <- h_args_loop (h_expandvalue fuel') (h_args c) (sl_len (h_args c)) 0 (List.length opcodes);
            if fst r =? 1 then literal [WSExpr (Some s)]
            else do vs <- make WNil (fst r); alternates s opcodes (snd r) (fst r) 0 vs
        | WExpr _ | WVar _ => literal [v]
        | WNil => fails (unexpected_type (str "<nil>"))
        | WRule _ => panics ill_typed
        end
    end.

  (** The loop of expandrule, pass/alt.go:51-59. *)
  Fixpoint new_rules (r : nat) (ms rs : slice) (k i : nat) (rules : slice) : M slice :=
    match k with
    | 0 => ret rules
    | S k' =>
        do m <- at_ ms (idx i (sl_len ms));
        do c <- get_rule r;
        do x <- at_ rs (idx i (sl_len rs));
        do p <- alloc (CRule {| h_match := m; h_cond := h_cond c; h_block := h_block c; h_result := x |});
        do rules' <- append rules [WRule (Some p)];
        new_rules r ms rs k' (S i) rules'
    end.

  (** expandrule, pass/alt.go:31-62. *)
  Definition h_expandrule (fuel : nat) (r : ptr) : M slice :=
    match r with
    | None => panics nil_deref
    | Some r =>
        do c <- get_rule r;
        do ms <- h_expandvalue fuel (h_match c);
        do c <- get_rule r;
        do rs <- h_expandvalue fuel (h_result c);
        do n <- lift (resolvecounts (sl_len ms) (sl_len rs));
        if n =? 1 then literal [WRule (Some r)]
        else do rules <- make (WRule None) n; new_rules r ms rs n 0 rules
    end.

  (** expandrules, pass/alt.go:19-29; [k] rules remain from index [j]. *)
  Fixpoint h_expandrules (fuel : nat) (rules : slice) (k j : nat) (exps : slice) : M slice :=
    match k with
    | 0 => ret exps
    | S k' =>
        do w <- at_ rules j;
        match w with
        | WRule r =>
            do exp <- h_expandrule fuel r;
            do ws <- elements exp;
            do exps' <- append exps ws;
            h_expandrules fuel rules k' (S j) exps'
        | _ => panics ill_typed
        end
    end.

  (** ExpandAlternates, pass/alt.go:10-17. *)
  Definition h_ExpandAlternates (fuel : nat) (f : ptr) : M unit :=
    match f with
    | None => panics nil_deref
    | Some f =>
        do c <- get f;
        match c with
        | CFile rules => do rs <- h_expandrules fuel rules (sl_len rules) 0 nil_slice; store f (CFile rs)
        | _ => panics ill_typed
        end
    end.
End Run.
