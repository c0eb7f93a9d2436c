(** Places in a source, as error messages name them. *)
From Verif Require Import Text SpecUtf8 SpecCmd.

(** [current] consists of [n] characters, when [after] follows: encoded characters,
    or single bytes that do not start one. *)
Inductive runes (after : text) : text -> nat -> Prop :=
| runes_nil : runes after [] 0
| runes_char k t n : utf8_char k -> runes after t n -> runes after (k ++ t) (S n)
| runes_bad c t n : (forall k r, utf8_char k -> c :: t ++ after <> k ++ r) -> runes after t n -> runes after (c :: t) (S n).

Definition newlines (t : text) : nat := count_occ ascii_dec t nl.

(** Offset [k] is line [l], column [c] of [data]: lines count from 1, columns in
    characters from 1; a newline itself counts as column 0 of the next line. *)
Definition place (data : text) (k l c : nat) : Prop :=
  exists done current after,
    data = done ++ current ++ after /\ k = List.length (done ++ current) /\
    ~ In nl current /\ (done = [] \/ exists d, done = d ++ [nl]) /\
    ((exists t, after = nl :: t) /\ l = 2 + newlines done /\ c = 0 \/
     (forall t, after <> nl :: t) /\ l = 1 + newlines done /\ exists n, runes after current n /\ c = S n).

(** [n] in decimal. *)
Definition decimal (n : nat) (ds : text) : Prop :=
  Forall digit ds /\ number ds = n /\ ds <> [] /\ (ds <> ["0"%char] -> hd_error ds <> Some "0"%char).

(** What precedes each message: the file's name, if any. *)
Definition label (filename message : text) : text :=
  match filename with [] => message | _ => filename ++ str ":" ++ message end.
