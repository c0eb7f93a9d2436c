(** Well-formed UTF-8, from the table of RFC 3629 (section 4).  Independent of the
    decoder model. *)
From Verif Require Import Text.
From Coq Require Import NArith.
Open Scope N_scope.

Definition byte_in (lo hi : N) (c : ascii) : Prop := lo <= byte_val c <= hi.
Definition tail_byte : ascii -> Prop := byte_in 128 191.

(** The encoding of one character. *)
Inductive utf8_char : text -> Prop :=
| utf8_1 a : byte_in 0 127 a -> utf8_char [a]
| utf8_2 a b : byte_in 194 223 a -> tail_byte b -> utf8_char [a; b]
| utf8_3a a b c : byte_in 224 224 a -> byte_in 160 191 b -> tail_byte c -> utf8_char [a; b; c]
| utf8_3b a b c : byte_in 225 236 a -> tail_byte b -> tail_byte c -> utf8_char [a; b; c]
| utf8_3c a b c : byte_in 237 237 a -> byte_in 128 159 b -> tail_byte c -> utf8_char [a; b; c]
| utf8_3d a b c : byte_in 238 239 a -> tail_byte b -> tail_byte c -> utf8_char [a; b; c]
| utf8_4a a b c d : byte_in 240 240 a -> byte_in 144 191 b -> tail_byte c -> tail_byte d -> utf8_char [a; b; c; d]
| utf8_4b a b c d : byte_in 241 243 a -> tail_byte b -> tail_byte c -> tail_byte d -> utf8_char [a; b; c; d]
| utf8_4c a b c d : byte_in 244 244 a -> byte_in 128 143 b -> tail_byte c -> tail_byte d -> utf8_char [a; b; c; d].

(** A text that is a sequence of such encodings. *)
Inductive utf8 : text -> Prop :=
| utf8_nil : utf8 []
| utf8_cons k t : utf8_char k -> utf8 t -> utf8 (k ++ t).
