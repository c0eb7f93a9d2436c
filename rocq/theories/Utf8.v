(** Go's unicode/utf8.DecodeRune and strings.TrimSpace/ReplaceAll (standard
    library functions called by the parser; modelled from their documented
    behaviour). *)
From Verif Require Import Text.
From Coq Require Import NArith Bool Arith.
Open Scope N_scope.

(** utf8.RuneError (unicode/utf8). *)
Definition RuneError : N := 65533.

(** The bounds of a byte in utf8.DecodeRune. *)
Definition cont (lo hi : N) (c : ascii) : bool := (lo <=? byte_val c) && (byte_val c <=? hi).

(** utf8.DecodeRune: the rune at the start of [s] and its width.  Empty input
    gives (RuneError, 0); an invalid or truncated sequence gives (RuneError, 1) (unicode/utf8; parse/internal/parser/zparser.go:2164). *)
Definition decode_rune (s : text) : N * nat :=
  match s with
  | [] => (RuneError, 0%nat)
  | b0 :: s1 =>
      let x := byte_val b0 in
      if x <? 128 then (x, 1%nat)
      else if (194 <=? x) && (x <=? 223) then
        match s1 with
        | b1 :: _ =>
            if cont 128 191 b1 then ((x - 192) * 64 + (byte_val b1 - 128), 2%nat)
            else (RuneError, 1%nat)
        | _ => (RuneError, 1%nat)
        end
      else if (224 <=? x) && (x <=? 239) then
        match s1 with
        | b1 :: b2 :: _ =>
            let lo := if x =? 224 then 160 else 128 in
            let hi := if x =? 237 then 159 else 191 in
            if cont lo hi b1 && cont 128 191 b2 then
              ((x - 224) * 4096 + (byte_val b1 - 128) * 64 + (byte_val b2 - 128), 3%nat)
            else (RuneError, 1%nat)
        | _ => (RuneError, 1%nat)
        end
      else if (240 <=? x) && (x <=? 244) then
        match s1 with
        | b1 :: b2 :: b3 :: _ =>
            let lo := if x =? 240 then 144 else 128 in
            let hi := if x =? 244 then 143 else 191 in
            if cont lo hi b1 && cont 128 191 b2 && cont 128 191 b3 then
              ((x - 240) * 262144 + (byte_val b1 - 128) * 4096
               + (byte_val b2 - 128) * 64 + (byte_val b3 - 128), 4%nat)
            else (RuneError, 1%nat)
        | _ => (RuneError, 1%nat)
        end
      else (RuneError, 1%nat)
  end.

(** strings.ReplaceAll(x, "\n", " ") (parse/internal/parser/zparser.go:1401). *)
Definition newlines_to_spaces (s : text) : text :=
  map (fun c => if ascii_dec c nl then sp else c) s.

(** The UTF-8 encodings of the runes for which unicode.IsSpace holds (parse/internal/parser/zparser.go:1402). *)
Definition bytes_of (l : list N) : text := map ascii_of_N l.
(** The encodings of the runes of unicode.IsSpace. *)
Definition space_encodings : list text :=
  map (fun n => [ascii_of_N n]) [9; 10; 11; 12; 13; 32] ++
  map bytes_of [[194;133]; [194;160]; [225;154;128];
    [226;128;128]; [226;128;129]; [226;128;130]; [226;128;131]; [226;128;132]; [226;128;133];
    [226;128;134]; [226;128;135]; [226;128;136]; [226;128;137]; [226;128;138];
    [226;128;168]; [226;128;169]; [226;128;175]; [226;129;159]; [227;128;128]].

(** Remove from the front of [s], repeatedly, any of the given byte sequences (parse/internal/parser/zparser.go:1402). *)
Fixpoint trim_front (fuel : nat) (encs : list text) (s : text) : text :=
  match fuel with
  | O => s
  | S k =>
      match find (fun e => has_prefix e s) encs with
      | Some e => trim_front k encs (skipn (List.length e) s)
      | None => s
      end
  end.

(** strings.TrimSpace: drop leading, then trailing, Unicode white space. *)
Definition trim_space (s : text) : text :=
  let s := trim_front (List.length s) space_encodings s in
  rev (trim_front (List.length s) (map (@rev ascii) space_encodings) (rev s)).
