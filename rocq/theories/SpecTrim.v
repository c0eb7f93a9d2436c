(** Removing outer white space.  Independent of the model of strings.TrimSpace. *)
From Verif Require Import Text.
From Coq Require Import NArith.

(** Unicode White_Space, by code point. *)
Definition space_points : list N :=
  ([9; 10; 11; 12; 13; 32; 133; 160; 5760] ++ [8192; 8193; 8194; 8195; 8196; 8197; 8198; 8199; 8200; 8201; 8202] ++ [8232; 8233; 8239; 8287; 12288])%N.
(** The UTF-8 encoding of a code point below 2^16. *)
Definition encode (n : N) : text :=
  (if n <? 128 then [ascii_of_N n]
   else if n <? 2048 then [ascii_of_N (192 + n / 64); ascii_of_N (128 + n mod 64)]
   else [ascii_of_N (224 + n / 4096); ascii_of_N (128 + (n / 64) mod 64); ascii_of_N (128 + n mod 64)])%N.
Definition space_char (k : text) : Prop := exists n, In n space_points /\ k = encode n.
Inductive spaces : text -> Prop :=
| spaces_nil : spaces []
| spaces_cons k t : space_char k -> spaces t -> spaces (k ++ t).
(** [t] is [s] without the white space at both ends. *)
Definition trimmed (s t : text) : Prop :=
  exists a b, s = a ++ t ++ b /\ spaces a /\ spaces b /\
    (forall k r, space_char k -> t <> k ++ r) /\ (forall k r, space_char k -> t <> r ++ k).
