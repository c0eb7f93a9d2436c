(** The command line and the whole process (C54).  Vocabulary: SpecFlag.v, SpecRun.v. *)
From Verif Require Import Text GoAst Ast Parse GoParser Smt Path Flag SpecFlag FlagFacts SpecCmd SpecErr SpecRun SpecKill CmdKill PropertiesCmd.
From Coq Require Import Arith Lia.
From Verif Require Import Cmd.

(** A command line has exactly one meaning. *)
Theorem C54_one_meaning :
  forall args,
    ((exists d files, command_line args d files) \/ asks_help args \/ exists m, misuse args m) /\
    (forall d files, command_line args d files -> ~ asks_help args /\ (forall m, ~ misuse args m) /\
       forall d' files', command_line args d' files' -> d' = d /\ files' = files) /\
    (asks_help args -> forall m, ~ misuse args m) /\
    (forall m m', misuse args m -> misuse args m' -> m' = m).
Proof.
  intros args. split; [|split; [|split]].
  - destruct (read_flags args) as [d f| |m] eqn:E; [left; exists d, f; apply read_files|right; left; apply read_help|right; right; exists m; apply read_bad]; exact E.
  - intros d files H. apply read_files in H. split; [|split].
    + intros X. apply read_help in X. congruence.
    + intros m X. apply read_bad in X. congruence.
    + intros d' f' X. apply read_files in X. split; congruence.
  - intros H m X. apply read_help in H. apply read_bad in X. congruence.
  - intros m m' H X. apply read_bad in H, X. congruence.
Qed.
Print Assumptions C54_one_meaning.

(** What the process does with it. *)
Definition usage_text (prog : text) : text :=
  str "Usage of " ++ prog ++ str ":" ++ [nl] ++ str "  -outdir string" ++ [nl] ++ str "    " ++ ["009"%char] ++ str "output directory" ++ [nl].
Theorem C54_process :
  forall gp disk failing prog args,
    let p := process_of (parse_disk gp disk) Join failing prog args in
    (forall d files, command_line args d files -> p = main_ (run (parse_disk gp disk) Join failing d files [])) /\
    (asks_help args -> p_files p = [] /\ p_stderr p = usage_text prog /\ p_status p = 0) /\
    (forall m, misuse args m -> p_files p = [] /\ p_stderr p = m ++ [nl] ++ usage_text prog /\ p_status p = 2).
Proof.
  intros gp disk failing prog args p. unfold p, process_of. fold (read_flags args). split; [|split].
  - intros d files H. apply read_files in H. rewrite H. reflexivity.
  - intros H. apply read_help in H. rewrite H. repeat split.
  - intros m H. apply read_bad in H. rewrite H. repeat split.
Qed.
Print Assumptions C54_process.

(** The exit status. *)
Theorem C54_status :
  forall gp disk failing prog args, never_nil gp ->
    let p := process_of (parse_disk gp disk) Join failing prog args in
    (p_status p = 0 <-> asks_help args \/
       exists d files rs, command_line args d files /\ run_rules gp disk files rs /\
         forall i r s ds, nth_error rs i = Some r -> Generate r = Ok s -> four_digits i ds -> failing (Join d (ds ++ str ".smt2")) s = None) /\
    (p_status p = 2 <-> exists m, misuse args m) /\
    p_status p <= 2.
Proof.
  intros gp disk failing prog args W p. pose proof (C54_process gp disk failing prog args) as (P1 & P2 & P3). fold p in P1, P2, P3.
  destruct (C54_one_meaning args) as ([(d & files & H)|[H|(m & H)]] & U1 & U2 & _).
  - specialize (P1 d files H). destruct (U1 d files H) as (Nh & Nm & U).
    pose proof (C45_exit_status gp disk failing d files [] W) as S. cbv zeta in S. rewrite <- P1 in S.
    split; [|split].
    + split.
      * intros E. right. destruct S as [(_ & X)|(S & _)]; [|lia]. apply (C45_success_iff gp disk failing d files [] W) in X. destruct X as (rs & R & F). exists d, files, rs. auto.
      * intros [X|(d' & f' & rs & C & R & F)]; [contradiction|]. destruct (U d' f' C) as [-> ->].
        assert (X : exists w', run (parse_disk gp disk) Join failing d files [] = Exit w' None) by (apply (C45_success_iff gp disk failing d files [] W); exists rs; auto).
        destruct X as [w' X]. rewrite P1, X. reflexivity.
    + split; [|intros [m X]; elim (Nm m X)]. destruct S as [(S & _)|(S & _)]; lia.
    + destruct S as [(S & _)|(S & _)]; lia.
  - destruct (P2 H) as (_ & _ & S). split; [|split; [|lia]].
    + split; [auto|]. intros _. exact S.
    + split; [lia|]. intros [m X]. elim (U2 H m X).
  - destruct (P3 m H) as (_ & _ & S). split; [|split; [|lia]].
    + split; [lia|]. intros [X|(d & files & _ & C & _)]; [elim (U2 X m H)|]. destruct (U1 d files C) as (_ & N & _). elim (N m H).
    + split; eauto.
Qed.
Print Assumptions C54_status.

(** Witnesses. *)
Definition words (l : list string) : list text := map str l.
Example C54_examples :
  command_line (words ["-outdir"; "a"; "--outdir=out/"; "a.rules"; "-x"]%string) (str "out/") (words ["a.rules"; "-x"]%string) /\
  command_line (words ["-outdir="; "--"; "-outdir"]%string) [] (words ["-outdir"]%string) /\
  asks_help (words ["-outdir"; "-x"; "--help=1"; "z"]%string) /\
  misuse (words ["---outdir"; "x"]%string) (str "bad flag syntax: ---outdir") /\
  misuse (words ["-out=x"]%string) (str "flag provided but not defined: -out") /\
  misuse (words ["-outdir"]%string) (str "flag needs an argument: -outdir") /\
  (let p := process_of (parse_disk ParseExpr ex_disk) Join no_failure (str "ssarules") (words ["-outdir"; "out"; "a.rules"]%string) in
   map fst (p_files p) = words ["out/0000.smt2"; "out/0001.smt2"]%string /\ p_status p = 0).
Proof.
  repeat split; try (apply read_files; reflexivity); try (apply read_help; reflexivity); try (apply read_bad; reflexivity); vm_compute; reflexivity.
Qed.
