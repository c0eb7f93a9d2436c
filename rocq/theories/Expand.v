(** Model of package pass (pass/alt.go): expansion of opcode alternatives. *)
From Verif Require Import Text GoAst Ast.
From Coq Require Import Arith Bool.
Open Scope res_scope.

(** resolvecounts, pass/alt.go:177-188.  Counts are lengths, hence nat. *)
Definition resolvecounts (m n : nat) : res nat :=
  if (m <=? 0) || (n <=? 0) then Err (assertion_failure (str "expect positive counts"))
  else if (1 <? m) && (1 <? n) && negb (m =? n) then
    Err (str "incompatible alternative counts " ++ dec m ++ str " and " ++ dec n)
  else if n <? m then Ok m
  else Ok n.

(** idx, pass/alt.go:190-195. *)
Definition idx (i n : nat) : nat := if n =? 1 then 0 else i.

(** Go slice indexing xs[i]: panics when out of range. *)
Definition index {A} (xs : list A) (i : nat) : res A :=
  match nth_error xs i with
  | Some x => Ok x
  | None => Panic (str "runtime error: index out of range [" ++ dec i ++
                   str "] with length " ++ dec (List.length xs))
  end.

(** "for _, x := range xs { acc = append(acc, f(x)) }" with early return on error (as in pass/alt.go:21-27 and 86-98). *)
Definition mapM {A B} (f : A -> res B) : list A -> res (list B) :=
  fix loop (xs : list A) : res (list B) :=
    match xs with
    | [] => Ok []
    | x :: xs' => let* y := f x in let* ys := loop xs' in Ok (y :: ys)
    end.

(** The counting loop of expandopcodeparts, pass/alt.go:144-153: parts that are
    not OpcodeAlt (including nil) are skipped. *)
Fixpoint countparts (n : nat) (parts : list oppart) : res nat :=
  match parts with
  | [] => Ok n
  | PAlt alt :: ps => let* n' := resolvecounts n (List.length alt) in countparts n' ps
  | _ :: ps => countparts n ps
  end.

(** The inner loop building alts[i], pass/alt.go:162-171. *)
Fixpoint buildalt (i : nat) (acc : text) (parts : list oppart) : res text :=
  match parts with
  | [] => Ok acc
  | PCode c :: ps => buildalt i (acc ++ c) ps
  | PAlt alt :: ps => let* a := index alt i in buildalt i (acc ++ a) ps
  | PNilPart :: _ => Err (unexpected_type (str "<nil>"))
  end.

(** expandopcodeparts, pass/alt.go:138-175. *)
Definition expandopcodeparts (parts : list oppart) : res (list text) :=
  match parts with
  | [] => Err (assertion_failure (str "empty opcode parts"))
  | _ =>
      let* n := countparts 1 parts in
      if n =? 1 then
        Err (assertion_failure (str "multi-part opcode should represent multiple alternatives"))
      else mapM (fun i => buildalt i [] parts) (seq 0 n)
  end.

(** expandop, pass/alt.go:127-136. *)
Definition expandop (o : op) : res (list text) :=
  match o with
  | Opcode c => Ok [c]
  | OpcodeParts ps => expandopcodeparts ps
  | NilOp => Err (unexpected_type (str "<nil>"))
  end.

(** The argument loop of expandsexpr, pass/alt.go:84-98: expand each argument and
    fold its count into n. *)
Definition expandargs (expandvalue : value -> res (list value))
  : nat -> list value -> res (nat * list (list value)) :=
  fix loop (n : nat) (args : list value) : res (nat * list (list value)) :=
    match args with
    | [] => Ok (n, [])
    | a :: args' =>
        let* exparg := expandvalue a in
        let* n' := resolvecounts n (List.length exparg) in
        let* r := loop n' args' in
        let '(n'', expargs) := r in
        Ok (n'', exparg :: expargs)
    end.

(** Building alternate i, pass/alt.go:107-121. *)
Definition buildsexpr (s : sexpr) (opcodes : list text) (expargs : list (list value)) (i : nat)
  : res value :=
  let* c := index opcodes (idx i (List.length opcodes)) in
  let* args := mapM (fun alts => index alts (idx i (List.length alts))) expargs in
  Ok (SExp {| s_binding := s_binding s; s_op := Opcode c; s_type := s_type s;
              s_auxint := s_auxint s; s_aux := s_aux s; s_args := args;
              s_ellipsis := s_ellipsis s; s_trailing := s_trailing s |}).

(** expandvalue and expandsexpr, pass/alt.go:64-125. *)
Fixpoint expandvalue (v : value) : res (list value) :=
  match v with
  | SExp s =>
      let* opcodes := expandop (s_op s) in
      let* r := expandargs (fun a => expandvalue a) (List.length opcodes) (s_args s) in
      let '(n, expargs) := r in
      if n =? 1 then Ok [SExp s]
      else mapM (buildsexpr s opcodes expargs) (seq 0 n)
  | EVal _ | Var _ => Ok [v]
  | NilValue => Err (unexpected_type (str "<nil>"))
  end.

(** expandrule, pass/alt.go:31-62. *)
Definition expandrule (r : rule) : res (list rule) :=
  let* ms := expandvalue (r_match r) in
  let* rs := expandvalue (r_result r) in
  let* n := resolvecounts (List.length ms) (List.length rs) in
  if n =? 1 then Ok [r]
  else mapM (fun i =>
    let* m := index ms (idx i (List.length ms)) in
    let* x := index rs (idx i (List.length rs)) in
    Ok {| r_match := m; r_cond := r_cond r; r_block := r_block r; r_result := x |}) (seq 0 n).

(** expandrules, pass/alt.go:19-29. *)
Fixpoint expandrules (rs : list rule) : res (list rule) :=
  match rs with
  | [] => Ok []
  | r :: rs' =>
      let* exp := expandrule r in
      let* exps := expandrules rs' in
      Ok (exp ++ exps)
  end.

(** ExpandAlternates, pass/alt.go:10-17.  It mutates *f: the result is the new
    contents of *f together with the returned error ([None] = nil), or a panic. *)
Definition ExpandAlternates (f : file) : res (file * option text) :=
  match expandrules (f_rules f) with
  | Ok rs => Ok ({| f_rules := rs |}, None)
  | Err e => Ok (f, Some e)
  | Panic m => Panic m
  end.
