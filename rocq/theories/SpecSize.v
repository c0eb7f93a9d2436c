(** Sizes: bytes of texts, sums, and the bytes of the files a run reads. *)
From Verif Require Import Text SpecRun.

Notation len := (@List.length ascii).
Fixpoint total (l : list nat) : nat := match l with [] => 0 | n :: l' => n + total l' end.
Definition input_size (disk : text -> on_disk) (names : list text) : nat :=
  total (map (fun n => match disk n with Holds b => len b | _ => 0 end) names).
