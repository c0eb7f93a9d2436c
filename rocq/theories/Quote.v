(** Reference model of strconv.Quote (Go 1.16 standard library, src/strconv/quote.go),
    which fmt's %q uses. *)
From Verif Require Import Text Utf8.
From Coq Require Import Arith NArith Bool.
Open Scope N_scope.

(** lowerhex[i] (strconv/quote.go). *)
Definition hex (n : N) : ascii := ascii_of_N (if n <? 10 then 48 + n else 87 + n).
(** The [k] lowest hexadecimal digits of [n] (strconv/quote.go). *)
Fixpoint hexes (k : nat) (n : N) : text :=
  match k with
  | O => []
  | S k => hexes k (n / 16) ++ [hex (n mod 16)]
  end.

Section Quote.
  (** strconv.IsPrint beyond ASCII: a table of Unicode, left open. *)
  Variable wide_print : N -> bool.
  (** strconv.IsPrint; [wide_print] beyond ASCII. *)
  Definition is_print (r : N) : bool := if r <? 128 then (32 <=? r) && (r <? 127) else wide_print r.

  (** appendEscapedRune, for double quotes and the bytes [enc] of the rune (strconv/quote.go). *)
  Definition escaped (r : N) (enc : text) : text :=
    if (r =? 34) || (r =? 92) then "\"%char :: enc
    else if is_print r then enc
    else if r =? 7 then str "\a" else if r =? 8 then str "\b" else if r =? 12 then str "\f"
    else if r =? 10 then str "\n" else if r =? 13 then str "\r" else if r =? 9 then str "\t"
    else if r =? 11 then str "\v"
    else if r <? 32 then str "\x" ++ hexes 2 r
    else if r <? 65536 then str "\u" ++ hexes 4 r
    else str "\U" ++ hexes 8 r.

  (** The loop of appendQuotedWith.  [fuel]: at least the number of bytes (strconv/quote.go). *)
  Fixpoint quoted (fuel : nat) (s : text) : text :=
    match fuel, s with
    | S fuel, b :: _ =>
        let '(r, width) := decode_rune s in
        if (width =? 1)%nat && (r =? RuneError) then str "\x" ++ hexes 2 (byte_val b) ++ quoted fuel (skipn width s)
        else escaped r (firstn width s) ++ quoted fuel (skipn width s)
    | _, _ => []
    end.
  (** strconv.Quote, used for strings in dumps. *)
  Definition Quote (s : text) : text := dquote :: quoted (List.length s) s ++ [dquote].
End Quote.
