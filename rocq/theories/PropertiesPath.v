(** C64: the scripts are in the directory asked for. *)
From Verif Require Import Text GoAst Ast Parse Smt Cmd Path SpecCmd SpecErr SpecRun SpecPath CmdFacts CmdRun PathFacts PropertiesCmd.
From Coq Require Import Arith List Lia.
Open Scope nat_scope.
Open Scope list_scope.

(** *** C64: whatever a run has written, and however it ends, is in the directory that the
    -outdir flag leads to, whatever detours the flag's value makes, if no directory is a
    link; in the directory itself, not below it, under the names of C44. *)
Theorem C64_scripts_in_outdir :
  forall (D : Type) root up child (cwd d : D) gp disk failing outdir names w w' err, never_nil gp ->
    no_links root up child -> leads root up child cwd outdir d ->
    run (parse_disk gp disk) Join failing outdir names w = Exit w' err ->
    exists written, w_files w' = w_files w ++ written /\
      forall p s, In (p, s) written -> exists i ds, four_digits i ds /\ file_in root up child cwd p d (ds ++ str ".smt2").
Proof.
  intros D root up child cwd d gp disk failing outdir names w w' err W NL L H.
  assert (In_ : forall i ds, four_digits i ds -> file_in root up child cwd (Join outdir (ds ++ str ".smt2")) d (ds ++ str ".smt2")).
  { intros i ds (Fd & _ & Len & _). apply join_in; [exact NL|exact L|]. destruct (digits_plain ds Fd Len) as (N0 & N1 & N2 & N3). split; [exact N1|auto]. }
  destruct err as [e|].
  - destruct (C45_errors_stop_cleanly gp disk failing outdir names w w' e W H) as [(Wf & _)|(rs & pre & r & post & l & ds & s & part & _ & _ & _ & F & _ & X & Wf)].
    + exists []. split; [rewrite app_nil_r; exact Wf|intros p s []].
    + exists (l ++ match part with Some p => [(Join outdir (ds ++ str ".smt2"), p)] | None => [] end). split; [exact Wf|].
      intros p s' I. apply in_app_or in I. destruct I as [I|I].
      * apply X in I. destruct I as (i & r' & ds' & _ & _ & F' & ->). exists i, ds'. split; [exact F'|exact (In_ i ds' F')].
      * destruct part as [part|]; [|destruct I]. destruct I as [I|[]]. inversion I; subst. exists (List.length pre), ds. split; [exact F|exact (In_ _ ds F)].
  - destruct (C44_output_files gp disk failing outdir names w w' W H) as (rs & written & _ & Wf & _ & X). exists written. split; [exact Wf|].
    intros p s I. apply X in I. destruct I as (i & r & ds & _ & _ & F & ->). exists i, ds. split; [exact F|exact (In_ i ds F)].
Qed.
Print Assumptions C64_scripts_in_outdir.

(** For any name; and the paths are written without detours. *)
Theorem C64_join :
  forall dir n, file_name n -> tidy (Join dir n) /\
    forall (D : Type) root up child (cwd d : D), no_links root up child -> leads root up child cwd dir d ->
      file_in root up child cwd (Join dir n) d n.
Proof. intros dir n N. split; [apply join_tidy; exact N|]. intros. apply join_in; assumption. Qed.
Print Assumptions C64_join.

(** A tree of directories in which everything exists, known by their names from the root. *)
Definition any_child (d : list text) (n : text) : option (list text) := Some (d ++ [n]).
Example C64_example :
  no_links [] (@removelast text) any_child /\
  leads [] (@removelast text) any_child [str "home"; str "me"] (str "../../var/./x/..//out") [str "var"; str "out"] /\
  Join (str "../../var/./x/..//out") (str "0007.smt2") = str "../../var/out/0007.smt2" /\
  leads [] (@removelast text) any_child [str "home"; str "me"] (str "") [str "home"; str "me"].
Proof.
  split; [split; [reflexivity|]; intros d n d' H; inversion H; subst; rewrite removelast_app by discriminate; apply app_nil_r|].
  split; [|split; [vm_compute; reflexivity|]].
  - exists [str ".."; str ".."; str "var"; str "."; str "x"; str ".."; []; str "out"], [str "home"; str "me"].
    split; [split; [discriminate|]; split; [reflexivity|]; repeat constructor; cbn; intuition discriminate|]. split; [|right; split; [discriminate|reflexivity]].
    assert (V : forall (a : string), ~ In "/"%char (str a) -> str a <> [] -> str a <> str "." -> str a <> str ".." -> file_name (str a)) by (unfold file_name; auto).
    econstructor; [apply st_up|]. econstructor; [apply st_up|]. econstructor; [apply st_down; [apply V; cbn; intuition discriminate|reflexivity]|].
    econstructor; [apply st_dot|]. econstructor; [apply st_down; [apply V; cbn; intuition discriminate|reflexivity]|]. econstructor; [apply st_up|].
    econstructor; [apply st_empty|]. econstructor; [apply st_down; [apply V; cbn; intuition discriminate|reflexivity]|]. constructor.
  - exists [[]], [str "home"; str "me"]. split; [split; [discriminate|]; split; [reflexivity|]; repeat constructor; intros []|]. split; [|right; split; [discriminate|reflexivity]].
    econstructor; [apply st_empty|constructor].
Qed.

(** With links it fails: in a directory with a link to a/b, "link/.." is a, but the
    script is written to the directory itself. *)
Definition linked_child (d : nat) (n : text) : option nat :=
  match d with
  | 0 => if text_eqb n (str "a") then Some 1 else if text_eqb n (str "link") then Some 2 else None
  | 1 => if text_eqb n (str "b") then Some 2 else None
  | _ => None
  end.
Theorem C64_links_refuted :
  leads 0 Nat.pred linked_child 0 (str "link/..") 1 /\ ~ file_in 0 Nat.pred linked_child 0 (Join (str "link/..") (str "0000.smt2")) 1 (str "0000.smt2").
Proof.
  split.
  - exists [str "link"; str ".."], 0. split; [split; [discriminate|]; split; [reflexivity|]; repeat constructor; cbn; intuition discriminate|]. split; [|right; split; [discriminate|reflexivity]].
    econstructor; [apply st_down; [unfold file_name; cbn; intuition discriminate|reflexivity]|]. econstructor; [apply st_up|constructor].
  - change (Join (str "link/..") (str "0000.smt2")) with (str "0000.smt2"). intros [[_ X]|(q & X & _)]; [discriminate|].
    apply (f_equal (@List.length ascii)) in X. rewrite !app_length in X. cbn in X. lia.
Qed.
Print Assumptions C64_links_refuted.
