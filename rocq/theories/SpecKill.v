(** Vocabulary for the order in which a run acts on the outside, and for runs that
    are killed. *)
From Verif Require Import Text GoAst Ast Cmd SpecPrint SpecCmd SpecErr SpecRun.

(** What is done for the rules [rs], the first of which has number [i]. *)
Inductive history (gen : rule -> res text) (path : text -> text) : nat -> list rule -> list event -> Prop :=
| hist_nil i : history gen path i [] []
| hist_script i r rs ds s evs :
    gen r = Ok s -> four_digits i ds -> history gen path (S i) rs evs ->
    history gen path i (r :: rs)
      (Logged (str "rule: " ++ rule_text r) :: Wrote (path (ds ++ str ".smt2")) s ::
       Logged (str "smt2: written to " ++ path (ds ++ str ".smt2")) :: evs)
| hist_none i r rs e evs :
    gen r = Err e -> history gen path (S i) rs evs ->
    history gen path i (r :: rs) (Logged (str "rule: " ++ rule_text r) :: Logged (str "error: " ++ e) :: evs).

(** The messages about loading when the groups of some rule do not agree. *)
Definition clash_log (names : list text) (files : list (list rule)) (k : list rule) (log : list text) : Prop :=
  exists l dt dk, file_log names files l /\ decimal (List.length (List.concat files)) dt /\ decimal (List.length k) dk /\
    log = l ++ [str "parsed " ++ dt ++ str " rules total"; str "filter simple: " ++ dk ++ str " rules"].

(** A process that would do [evs] is killed; [seen] is what it has done by then.  It
    may be killed between two actions, or while writing a file, of which a beginning
    is then there. *)
Inductive killed : list event -> list event -> Prop :=
| killed_between a b : killed (a ++ b) a
| killed_writing a p c c' b : killed (a ++ Wrote p (c ++ c') :: b) (a ++ [Wrote p c]).

(** What the file [p] contains after these writes: a write replaces the contents. *)
Definition contents (l : list (text * text)) (p : text) : option text :=
  fold_left (fun now w => if text_eqb (fst w) p then Some (snd w) else now) l None.
