(** Where a path leads: the specification of C64.  Directories may contain links to other
    directories, unless said otherwise. *)
From Verif Require Import Text.

(** The names between the slashes of a path; there is at least one, perhaps empty. *)
Fixpoint with_slashes (names : list text) : text :=
  match names with
  | [] => []
  | [n] => n
  | n :: names => n ++ str "/" ++ with_slashes names
  end.
Definition names_of (p : text) (names : list text) : Prop :=
  names <> [] /\ p = with_slashes names /\ Forall (fun n => ~ In "/"%char n) names.
(** A name that a file can have. *)
Definition file_name (n : text) : Prop := ~ In "/"%char n /\ n <> [] /\ n <> str "." /\ n <> str "..".

Section Tree.
  (** Directories, each with its parent and the directories in it, by name. *)
  Context {D : Type}.
  Variables (root : D) (up : D -> D) (child : D -> text -> option D).
  Inductive step (d : D) : text -> D -> Prop :=
  | st_empty : step d [] d
  | st_dot : step d (str ".") d
  | st_up : step d (str "..") (up d)
  | st_down n d' : file_name n -> child d n = Some d' -> step d n d'.
  Inductive walk (d : D) : list text -> D -> Prop :=
  | wk_nil : walk d [] d
  | wk_cons n names d1 d2 : step d n d1 -> walk d1 names d2 -> walk d (n :: names) d2.
  Definition absolute (p : text) : Prop := hd_error p = Some "/"%char.
  (** In directory [cwd], the path [p] leads to the directory [d].  The empty path is
      [cwd] itself. *)
  Definition leads (cwd : D) (p : text) (d : D) : Prop :=
    exists names start, names_of p names /\ walk start names d /\ (absolute p /\ start = root \/ ~ absolute p /\ start = cwd).
  (** The path [p] is that of the file [n] of directory [d]. *)
  Definition file_in (cwd : D) (p : text) (d : D) (n : text) : Prop :=
    p = n /\ d = cwd \/ exists q, p = q ++ str "/" ++ n /\ leads cwd (q ++ str "/") d.
  (** No directory can be reached but through its parent; the root has none. *)
  Definition no_links : Prop := up root = root /\ forall d n d', child d n = Some d' -> up d' = d.
End Tree.

(** A path without detours: ".." only where it begins, and not if it is absolute. *)
Inductive tidy : text -> Prop :=
| tidy_absolute names : Forall file_name names -> tidy (str "/" ++ with_slashes names)
| tidy_relative k names : Forall file_name names -> names <> [] -> tidy (with_slashes (repeat (str "..") k ++ names)).
