(** Several goroutines that call pass.ExpandAlternates (pass/alt.go:10-17), the feature tests
    of rules/rules.go, printer.Bytes (printer/printer.go:17-23), smt2.Generate
    (smt2/generate.go:16-27) and parse.Reader (parse/parse.go:22-28, on bytes that are all
    there) at the same time.  No file of /repo starts goroutines or uses locks, and the package
    variables (the grammar g and the errors, zparser.go:28 and 1647; operations, smt2/ops.go:26; ast.Placeholder) are only read: each goroutine is one of the
    programs of Heap.v, HeapWalk.v, HeapPrint.v or HeapParse.v, and a step of
    the whole is one access to memory by one of them.  An access to a struct or an array
    is one step; PropertiesConc.v shows that no two goroutines ever race for one, so a finer
    grain makes no difference. *)
From Verif Require Import Text GoAst Ast Expand Heap HeapWalk HeapPrint HeapParse.
From Coq Require Import Arith Bool.
Open Scope nat_scope.
Open Scope list_scope.

(** What a goroutine calls (the exported functions of parse, pass, rules, printer, smt2). *)
Inductive call :=
| CallExpand (spare : nat -> nat -> nat) (fuel : nat) (f : nat)      (* pass.ExpandAlternates(f) *)
| CallHas (x : feature) (fuel : nat) (r : nat)                       (* rules.HasBinding(r), ... *)
| CallPrint (fuel : nat) (n : pnode)                                 (* printer.Bytes(n) *)
| CallGenerate (fuel : nat) (r : nat)                                (* smt2.Generate(r) *)
| CallParse (gp : text -> res gexpr) (spare : nat -> nat -> nat) (filename data : text)
                                                                     (* parse.Reader(filename, ...) *)
| CallProcess (gp : text -> res gexpr) (spare : nat -> nat -> nat) (fuel : nat) (filename data : text).
      (* a client that parses a file, expands it and prints it *)
(** What the call returns (as above). *)
Inductive answer := Returned | Answered (b : bool) | Wrote (t : text) | Parsed (f : nat).
(** A goroutine that makes one call. *)
Definition goroutine := prog answer.
(** The call as a program. *)
Definition start (c : call) : goroutine :=
  match c with
  | CallExpand spare fuel f => do _ <- h_ExpandAlternates spare fuel (Some f); ret Returned
  | CallHas x fuel r => do b <- h_has x fuel (Some r); ret (Answered b)
  | CallPrint fuel n => do t <- hp_Bytes fuel n; ret (Wrote t)
  | CallGenerate fuel r => do t <- hg_Generate fuel (Some r); ret (Wrote t)
  | CallParse gp spare filename data => do p <- h_Parse gp spare filename data; ret (Parsed p)
  | CallProcess gp spare fuel filename data =>
      do p <- h_Parse gp spare filename data;
      do _ <- h_ExpandAlternates spare fuel (Some p);
      do t <- hp_Bytes fuel (PFile (Some p)); ret (Wrote t)
  end.

(** One access to memory (Go memory model). *)
Inductive access := Reads (p : nat) | Allocates (p : nat) | Writes (p : nat).
(** One step of a goroutine. *)
Inductive go_step : goroutine -> heap -> access -> goroutine -> heap -> Prop :=
| step_load p k h : go_step (Load p k) h (Reads p) (k (nth_error h p)) h
| step_new c k h : go_step (New c k) h (Allocates (List.length h)) (k (List.length h)) (h ++ [c])
| step_store p c k h : go_step (Store p c k) h (Writes p) k (write p c h).

(** The scheduler picks any goroutine that is not done (for the scheduler only). *)
Definition with_nth {A} (l : list A) (i : nat) (x : A) : list A := firstn i l ++ x :: skipn (S i) l.
(** An interleaving, as the list of accesses in their order. *)
Inductive schedule : list goroutine * heap -> list (nat * access) -> list goroutine * heap -> Prop :=
| sched_nil s : schedule s [] s
| sched_step gs h i g a g' h' tr s :
    nth_error gs i = Some g -> go_step g h a g' h' ->
    schedule (with_nth gs i g', h') tr s ->
    schedule (gs, h) ((i, a) :: tr) s.
