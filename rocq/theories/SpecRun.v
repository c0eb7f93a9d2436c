(** Vocabulary for whole runs of the command: what is on disk, which rules it holds,
    and what is reported. *)
From Verif Require Import Text GoAst Ast Parse Path SpecTree SpecExpand SpecUtf8 SpecSyntax SpecCmd SpecErr.
From Coq Require Import NArith.

(** A file on disk: it cannot be opened, reading fails, closing fails, or it holds
    these bytes. *)
Inductive on_disk := OpenFails (e : text) | ReadFails (e : text) | CloseFails (b e : text) | Holds (b : text).
(** parse.File on such a disk. *)
Definition parse_disk (gp : text -> res gexpr) (disk : text -> on_disk) (name : text) : res file :=
  match disk name with
  | OpenFails e => File_ gp name (Some e) (Ok []) None
  | ReadFails e => File_ gp name None (Err e) None
  | CloseFails b e => File_ gp name None (Ok b) (Some e)
  | Holds b => File_ gp name None (Ok b) None
  end.

(** An expression without missing parts; go/parser.ParseExpr returns no other. *)
Fixpoint no_nil (e : gexpr) : Prop :=
  match e with
  | GIdent _ _ | GBasicLit _ _ _ | GOther _ => True
  | GParen _ x _ | GUnary _ _ x | GStar _ x | GSelector x _ _ => no_nil x
  | GBinary x _ _ y => no_nil x /\ no_nil y
  | GCall f _ args _ _ => no_nil f /\ fold_right (fun a P => no_nil a /\ P) True args
  | GNil => False
  end.
Definition never_nil (gp : text -> res gexpr) : Prop := forall t e, gp t = Ok e -> no_nil e.

Section Sources.
  Variable gp : text -> res gexpr.
  Variable disk : text -> on_disk.
  (** The named file holds these rules; it does not. *)
  Definition holds (name : text) (rs : list rule) : Prop := exists b, disk name = Holds b /\ utf8 b /\ source_form gp b rs.
  Definition unreadable (name : text) : Prop := forall rs, ~ holds name rs.
  (** The rules of a run: the simple ones of the files, in order, if each has groups
      of one size only, replaced by their instances. *)
  Definition simple_of (names : list text) (k : list rule) : Prop :=
    exists files, Forall2 holds names files /\ sifted simple_rule (List.concat files) k.
  Definition run_rules (names : list text) (rs : list rule) : Prop :=
    exists k, simple_of names k /\ Forall (fun r => uniform (rule_groups r)) k /\ rs = flat_map instances k.
End Sources.

(** The messages about loading. *)
Inductive file_log : list text -> list (list rule) -> list text -> Prop :=
| flog_nil : file_log [] [] []
| flog_cons n rs d names files log : decimal (List.length rs) d -> file_log names files log ->
    file_log (n :: names) (rs :: files) ((str "parsed " ++ d ++ str " rules from " ++ n) :: log).
Definition load_log (names : list text) (files : list (list rule)) (k rs : list rule) (log : list text) : Prop :=
  exists l dt dk dr, file_log names files l /\
    decimal (List.length (List.concat files)) dt /\ decimal (List.length k) dk /\ decimal (List.length rs) dr /\
    log = l ++ [str "parsed " ++ dt ++ str " rules total"; str "filter simple: " ++ dk ++ str " rules";
                str "expand alternates: " ++ dr ++ str " rules"].
(** The messages as lines. *)
Inductive lines : list text -> text -> Prop :=
| lines_nil : lines [] []
| lines_ended m log t : lines log t -> lines ((m ++ [nl]) :: log) (str "ssarules: " ++ m ++ [nl] ++ t)
| lines_open m log t : (forall m', m <> m' ++ [nl]) -> lines log t -> lines (m :: log) (str "ssarules: " ++ m ++ [nl] ++ t).

(** Names that SMT-LIB gives a meaning; a reader may be lenient about "_". *)
Definition taken (lenient : bool) (x : text) : Prop :=
  In x (map str (SpecSmt.reserved ++ SpecSmt.theory_symbols)) /\ ~ (lenient = true /\ x = str "_").
