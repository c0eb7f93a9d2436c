(** How the command line is written. *)
From Verif Require Import Text.

(** A word that starts a flag: a dash and something after it. *)
Definition dashed (w : text) : Prop := exists c w', w = "-"%char :: c :: w'.
(** One or two dashes. *)
Definition dashes (d : text) : Prop := d = str "-" \/ d = str "--".

(** [outdirs args d d' rest]: [args] begins with settings of the output directory,
    the last of which makes it [d'] ([d] if there is none), and goes on with [rest]. *)
Inductive outdirs : list text -> text -> text -> list text -> Prop :=
| od_none args d : outdirs args d d args
| od_next h v args d d' rest : dashes h -> outdirs args v d' rest -> outdirs ((h ++ str "outdir") :: v :: args) d d' rest
| od_equals h v args d d' rest : dashes h -> outdirs args v d' rest -> outdirs ((h ++ str "outdir=" ++ v) :: args) d d' rest.

(** The command line names the output directory [d] and the files [files]: settings,
    then perhaps "--", then the files; without "--" the first must not look like a
    flag. *)
Inductive command_line (args : list text) (d : text) : list text -> Prop :=
| cl_files files : outdirs args [] d files -> (forall w rest, files = w :: rest -> ~ dashed w) -> command_line args d files
| cl_dashes files : outdirs args [] d (str "--" :: files) -> command_line args d files.

(** It asks for help: settings, then -h, -help, --h or --help, perhaps with "=" and
    anything. *)
Definition asks_help (args : list text) : Prop :=
  exists d w rest h name, outdirs args [] d (w :: rest) /\ dashes h /\ (name = str "h" \/ name = str "help") /\
    (w = h ++ name \/ exists v, w = h ++ name ++ str "=" ++ v).

(** What is wrong with it. *)
Inductive misuse (args : list text) : text -> Prop :=
| mis_syntax d h w rest c :                (* three dashes, or no name *)
    outdirs args [] d ((h ++ w) :: rest) -> dashes h -> hd_error w = Some c -> c = "-"%char /\ h = str "--" \/ c = "="%char ->
    misuse args (str "bad flag syntax: " ++ h ++ w)
| mis_unknown d h name tail rest :         (* another flag *)
    outdirs args [] d ((h ++ name ++ tail) :: rest) -> dashes h ->
    ~ In "="%char name -> (tail = [] \/ exists v, tail = str "=" ++ v) -> name <> [] -> hd_error name <> Some "-"%char ->
    ~ In name [str "outdir"; str "h"; str "help"] ->
    misuse args (str "flag provided but not defined: -" ++ name)
| mis_missing d h :                        (* the directory is missing *)
    outdirs args [] d [h ++ str "outdir"] -> dashes h -> misuse args (str "flag needs an argument: -outdir").
