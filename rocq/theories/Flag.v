(** Reference model of package flag (Go 1.16 standard library, src/flag/flag.go) for
    the one flag of cmd/ssarules/main.go:27, and of the whole process. *)
From Verif Require Import Text GoAst Ast Cmd.
From Coq Require Import Bool.

(** What is left of parseOne's result: a value was set (then the rest of the
    arguments and the value), the flags end here (with the remaining arguments), help
    was asked for, or an error (flag.go, parseOne). *)
Inductive one := OSet (value : text) (args : list text) | OEnd (args : list text) | OHelp | OFail (msg : text).

(** The loop of parseOne that looks for "=" (flag.go, parseOne); the character at index
    0 was checked before.  The name and, if there is an "=", the value. *)
Fixpoint split_equals (s : text) : text * option text :=
  match s with
  | [] => ([], None)
  | c :: s' => if ascii_dec c "="%char then ([], Some s')
               else let '(n, v) := split_equals s' in (c :: n, v)
  end.

(** The flag looked up: the map of formal flags has the one key "outdir" (main.go:27);
    the value is a string, which takes any text (flag.go, parseOne). *)
Definition set_flag (name : text) (value : option text) (args : list text) : one :=
  if text_eqb name (str "outdir") then
    match value, args with
    | Some v, _ => OSet v args
    | None, v :: args' => OSet v args'
    | None, [] => OFail (str "flag needs an argument: -" ++ name)
    end
  else if text_eqb name (str "help") || text_eqb name (str "h") then OHelp
  else OFail (str "flag provided but not defined: -" ++ name).

(** parseOne from "name := s[numMinuses:]" on (flag.go). *)
Definition named (s name : text) (args : list text) : one :=
  match name with
  | [] => OFail (str "bad flag syntax: " ++ s)
  | c :: name' =>
      if ascii_dec c "-"%char then OFail (str "bad flag syntax: " ++ s)
      else if ascii_dec c "="%char then OFail (str "bad flag syntax: " ++ s)
      else let '(n, v) := split_equals name' in set_flag (c :: n) v args
  end.

(** FlagSet.parseOne, flag.go. *)
Definition parseOne (args : list text) : one :=
  match args with
  | [] => OEnd []
  | s :: args' =>
      match s with
      | m :: s' =>
          match s' with
          | [] => OEnd args                                (* len(s) < 2 *)
          | m' :: s'' =>
              if ascii_dec m "-"%char then
                if ascii_dec m' "-"%char then
                  match s'' with
                  | [] => OEnd args'                       (* "--" terminates the flags *)
                  | _ => named s s'' args'
                  end
                else named s s' args'
              else OEnd args
          end
      | [] => OEnd args
      end
  end.

(** Outcome of flag.Parse (cmd/ssarules/main.go:30-31): the value of -outdir and flag.Args(); or help was asked for; or an error. ExitOnError ends the process in the last two. *)
Inductive flags := Flags (outdir : text) (args : list text) | Help | BadFlags (msg : text).

(** FlagSet.Parse, flag.go, with ExitOnError.  Each round but the last drops an argument;
    [fuel] is their number. *)
Fixpoint parse_flags (fuel : nat) (outdir : text) (args : list text) : flags :=
  match fuel with
  | 0 => Flags outdir args
  | S fuel =>
      match parseOne args with
      | OSet v args' => parse_flags fuel v args'
      | OEnd args' => Flags outdir args'
      | OHelp => Help
      | OFail m => BadFlags m
      end
  end.

(** flag.Usage and PrintDefaults for that flag (flag.go). *)
Definition usage (prog : text) : text :=
  str "Usage of " ++ prog ++ str ":" ++ [nl] ++ str "  -outdir string" ++ [nl] ++ str "    " ++ [ascii_of_nat 9] ++ str "output directory" ++ [nl].

(** The process started with the program name [prog] and the arguments [args]:
    cmd/ssarules/main.go:18-31.  An error in the flags is printed with the usage and
    ends the process with status 2; help ends it with status 0. *)
Definition process_of (parse_file : text -> res file) (join : text -> text -> text)
  (write_failure : text -> text -> option (option text * text)) (prog : text) (args : list text) : process :=
  match parse_flags (S (List.length args)) [] args with
  | Flags outdir filenames => main_ (Cmd.run parse_file join write_failure outdir filenames [])
  | Help => {| p_files := []; p_stderr := usage prog; p_status := 0 |}
  | BadFlags m => {| p_files := []; p_stderr := m ++ [nl] ++ usage prog; p_status := 2 |}
  end.
