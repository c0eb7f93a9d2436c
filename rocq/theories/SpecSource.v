(** Shapes of sources and of Go parsers the properties of package parse speak about. *)
From Verif Require Import Text GoAst Utf8 SpecSyntax.

(** No expression of the Go parser is only a line comment. *)
Definition no_comment_expr (gp : text -> res gexpr) : Prop :=
  forall t e, ~ In nl t -> gp (str "//" ++ t) <> Ok e.

(** A rule with a condition, written on one line. *)
Definition cond_source (m c res : text) : text := m ++ str " && " ++ c ++ str " => " ++ res.
(** A condition text that starts with neither a blank nor a slash and has no arrow in it. *)
Definition free_cond (c : text) : Prop :=
  (exists d t, c = d :: t /\ ~ blank d /\ d <> "/"%char) /\ (forall x y, c <> x ++ str "=>" ++ y).
