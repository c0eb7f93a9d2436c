(** Model of cmd/ssarules/main.go. *)
From Verif Require Import Text GoAst Ast Walk Expand Printer Smt.
From Coq Require Import Arith Bool.
Open Scope res_scope.

(** What a run does to the outside, in order: messages logged, and files written
    (path, contents; a later write to the same path replaces the contents) (cmd/ssarules/main.go:29-102). *)
Inductive event := Logged (m : text) | Wrote (path content : text).
(** The world a run acts on: all that was done to it so far (cmd/ssarules/main.go:29-102). *)
Definition world := list event.
(** The files written and the messages logged in a world (cmd/ssarules/main.go:54). *)
Definition w_files (w : world) : list (text * text) :=
  flat_map (fun e => match e with Wrote p c => [(p, c)] | Logged _ => [] end) w.
(** The messages logged (log.Printf, cmd/ssarules/main.go:45-58, 72-99). *)
Definition w_log (w : world) : list text :=
  flat_map (fun e => match e with Logged m => [m] | Wrote _ _ => [] end) w.

(** log.Printf after formatting, cmd/ssarules/main.go:45,49,58,72,75,92,99. *)
Definition logf (m : text) (w : world) : world := w ++ [Logged m].
(** The effect of ioutil.WriteFile, cmd/ssarules/main.go:54. *)
Definition write_file (path content : text) (w : world) : world := w ++ [Wrote path content].

(** Outcome of run: the final world and the returned error, or a panic (cmd/ssarules/main.go:29-62). *)
Inductive outcome := Exit (w : world) (err : option text) | Crash (w : world) (msg : text).

Section Cmd.
  (** External behaviour: [parse_file] is parse.File (reading included);
      [join] is filepath.Join; [write_failure path content] is how
      ioutil.WriteFile fails, if it does: the contents it leaves in the file (if
      it created or truncated it) and the error it returns. *)
  Variable parse_file : text -> res file.
  Variable join : text -> text -> text.
  Variable write_failure : text -> text -> option (option text * text).

  (** The parsing loop of load, cmd/ssarules/main.go:65-75. *)
  Fixpoint parse_all (filenames : list text) (w : world) : world * res (list rule) :=
    match filenames with
    | [] => (w, Ok [])
    | fn :: fns =>
        match parse_file fn with
        | Ok f =>
            let w := logf (str "parsed " ++ dec (List.length (f_rules f)) ++ str " rules from " ++ fn) w in
            let '(w, r) := parse_all fns w in
            (w, let* rs := r in Ok (f_rules f ++ rs))
        | Err e => (w, Err (str "parse: " ++ e))
        | Panic m => (w, Panic m)
        end
    end.

  (** The "||" chain of main.go:80-87 (with its short-circuit). *)
  Fixpoint any_of (checks : list (rule -> res bool)) (r : rule) : res bool :=
    match checks with
    | [] => Ok false
    | c :: cs => let* b := c r in if b then Ok true else any_of cs r
    end.

  (** The condition negated in load, cmd/ssarules/main.go:80-87, with its short-circuit order. *)
  Definition not_simple (r : rule) : res bool :=
    any_of [ (fun r => Ok (is_some (r_cond r)));
             (fun r => Ok (is_nonempty (r_block r)));
             HasBinding; HasType; HasAux; HasAuxInt; HasEllipsis; HasTrailing ] r.

  (** The filter loop, main.go:77-90. *)
  Fixpoint filter_simple (rs : list rule) : res (list rule) :=
    match rs with
    | [] => Ok []
    | r :: rs' =>
        let* b := not_simple r in
        let* rest := filter_simple rs' in
        Ok (if b then rest else r :: rest)
    end.

  (** load, cmd/ssarules/main.go:64-102. *)
  Definition load (filenames : list text) (w : world) : world * res file :=
    let '(w, r) := parse_all filenames w in
    match r with
    | Ok rs =>
        let w := logf (str "parsed " ++ dec (List.length rs) ++ str " rules total") w in
        match filter_simple rs with
        | Ok s =>
            let w := logf (str "filter simple: " ++ dec (List.length s) ++ str " rules") w in
            match ExpandAlternates {| f_rules := s |} with
            | Ok (f, None) =>
                (logf (str "expand alternates: " ++ dec (List.length (f_rules f)) ++ str " rules") w, Ok f)
            | Ok (_, Some e) => (w, Err e)
            | Err e => (w, Err e)
            | Panic m => (w, Panic m)
            end
        | Err e => (w, Err e)
        | Panic m => (w, Panic m)
        end
    | Err e => (w, Err e)
    | Panic m => (w, Panic m)
    end.

  (** The generation loop of run, main.go:39-59. *)
  Fixpoint gen_loop (outdir : text) (i : nat) (rs : list rule) (w : world) : outcome :=
    match rs with
    | [] => Exit w None
    | r :: rs' =>
        match Bytes (NRule r) with
        | Err e => Exit w (Some e)
        | Panic m => Crash w m
        | Ok b =>
            let w := logf (str "rule: " ++ b) w in
            match Generate r with
            | Panic m => Crash w m
            | Err e => gen_loop outdir (S i) rs' (logf (str "error: " ++ e) w)
            | Ok b =>
                let filename := join outdir (dec4 i ++ str ".smt2") in
                match write_failure filename b with
                | Some (None, e) => Exit w (Some e)
                | Some (Some part, e) => Exit (write_file filename part w) (Some e)
                | None =>
                    let w := write_file filename b w in
                    let w := logf (str "smt2: written to " ++ filename) w in
                    gen_loop outdir (S i) rs' w
                end
            end
        end
    end.

  (** run, cmd/ssarules/main.go:29-62. *)
  Definition run (outdir : text) (filenames : list text) (w : world) : outcome :=
    let '(w, r) := load filenames w in
    match r with
    | Ok f => gen_loop outdir 0 (f_rules f) w
    | Err e => Exit w (Some e)
    | Panic m => Crash w m
    end.
End Cmd.

(** log.Logger.Output with the prefix "ssarules: " and no flags (main.go:19-20; Go
    standard library, src/log/log.go of Go 1.15): a newline is appended unless the
    message ends with one. *)
Definition log_line (m : text) : text :=
  str "ssarules: " ++ m ++ match rev m with c :: _ => if ascii_dec c nl then [] else [nl] | [] => [nl] end.
(** What a process leaves behind: the files, standard error, the exit status (cmd/ssarules/main.go:19-25). *)
Record process := { p_files : list (text * text); p_stderr : text; p_status : nat }.
(** main, cmd/ssarules/main.go:18-25: log.Fatal logs the error and exits with status
    1; a panic ends the process with status 2 (its trace on standard error is not
    modelled). *)
Definition main_ (o : outcome) : process :=
  let ended (w : world) (status : nat) :=
    {| p_files := w_files w; p_stderr := List.concat (map log_line (w_log w)); p_status := status |} in
  match o with
  | Exit w None => ended w 0
  | Exit w (Some e) => ended (logf e w) 1
  | Crash w _ => ended w 2
  end.
