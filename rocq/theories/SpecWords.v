(** Identifiers and literals of Go, as the language specification defines them, except
    that an imaginary literal in base 2 or 8 may have any
    decimal digits, as go/scanner (Go 1.16) has it.  Letters and digits are those of
    Unicode 13.0.0 (Unicode.v). *)
From Verif Require Import Text GoAst SpecUtf8 Unicode.
From Coq Require Import NArith Arith.
Open Scope nat_scope.
Open Scope list_scope.

(** ** Characters *)
Definition from_to (lo hi : nat) (c : ascii) : Prop := lo <= nat_of_ascii c <= hi.
Definition decimal_digit (c : ascii) : Prop := from_to 48 57 c.
Definition binary_digit (c : ascii) : Prop := from_to 48 49 c.
Definition octal_digit (c : ascii) : Prop := from_to 48 55 c.
Definition hex_digit (c : ascii) : Prop := from_to 48 57 c \/ from_to 65 70 c \/ from_to 97 102 c.
(** The code point of a character, given its encoding. *)
Definition char_code (k : text) : N :=
  (match map byte_val k with
   | [a] => a
   | [a; b] => (a - 192) * 64 + (b - 128)
   | [a; b; c] => (a - 224) * 4096 + (b - 128) * 64 + (c - 128)
   | [a; b; c; d] => (a - 240) * 262144 + (b - 128) * 4096 + (c - 128) * 64 + (d - 128)
   | _ => 0
   end)%N.
Definition listed (ranges : list (N * N)) (r : N) : Prop := exists lo hi, In (lo, hi) ranges /\ (lo <= r <= hi)%N.
(** https://go.dev/ref/spec#Letters_and_digits, and Unicode's digits *)
Definition go_letter (k : text) : Prop :=
  let r := char_code k in ((65 <= r <= 90)%N \/ (97 <= r <= 122)%N \/ r = 95%N) \/ listed letter_ranges r.
Definition go_digit (k : text) : Prop :=
  let r := char_code k in (48 <= r <= 57)%N \/ listed digit_ranges r.
(** A character of a source: UTF-8, not NUL, not a byte order mark (U+FEFF). *)
Definition go_char (k : text) : Prop :=
  utf8_char k /\ k <> [ascii_of_nat 0] /\ k <> map ascii_of_nat [239; 187; 191].
Inductive go_source : text -> Prop :=
| go_end : go_source []
| go_next k t : go_char k -> go_source t -> go_source (k ++ t).

(** https://go.dev/ref/spec#Keywords *)
Definition go_keyword (x : text) : Prop := In x (map str [
  "break"; "default"; "func"; "interface"; "select";
  "case"; "defer"; "go"; "map"; "struct";
  "chan"; "else"; "goto"; "package"; "switch";
  "const"; "fallthrough"; "if"; "range"; "type";
  "continue"; "for"; "import"; "return"; "var"]%string).

(** https://go.dev/ref/spec#Identifiers *)
Definition go_identifier (x : text) : Prop :=
  exists k ks, x = k ++ List.concat ks /\ Forall utf8_char (k :: ks) /\
    go_letter k /\ Forall (fun k => go_letter k \/ go_digit k) ks /\ ~ go_keyword x.

(** ** Numbers *)
(** Digits, with single underscores between them. *)
Inductive digits (P : ascii -> Prop) : text -> Prop :=
| dg_one c : P c -> digits P [c]
| dg_more c t : P c -> digits P t -> digits P (c :: t)
| dg_sep c t : P c -> digits P t -> digits P (c :: "_"%char :: t).
(** The same, possibly after an underscore. *)
Inductive later_digits (P : ascii -> Prop) : text -> Prop :=
| ld_digits t : digits P t -> later_digits P t
| ld_sep t : digits P t -> later_digits P ("_"%char :: t).
Definition optional (P : text -> Prop) (t : text) : Prop := t = [] \/ P t.
Definition one_of (t : text) (c : ascii) : Prop := In c t.

(** https://go.dev/ref/spec#Integer_literals *)
Inductive go_integer : text -> Prop :=
| gi_zero : go_integer (str "0")
| gi_decimal c t : from_to 49 57 c -> optional (later_digits decimal_digit) t -> go_integer (c :: t)
| gi_octal t : later_digits octal_digit t -> go_integer ("0"%char :: t)
| gi_prefix_octal x t : one_of (str "oO") x -> later_digits octal_digit t -> go_integer ("0"%char :: x :: t)
| gi_binary x t : one_of (str "bB") x -> later_digits binary_digit t -> go_integer ("0"%char :: x :: t)
| gi_hex x t : one_of (str "xX") x -> later_digits hex_digit t -> go_integer ("0"%char :: x :: t).

(** https://go.dev/ref/spec#Floating-point_literals *)
Inductive go_exponent (letters : text) : text -> Prop :=
| ge_exponent e sign t : one_of letters e -> In sign [[]; str "+"; str "-"] -> digits decimal_digit t ->
    go_exponent letters (e :: sign ++ t).
Inductive go_float : text -> Prop :=
| gf_point whole fraction expo : optional (digits decimal_digit) whole -> optional (digits decimal_digit) fraction ->
    whole <> [] \/ fraction <> [] -> optional (go_exponent (str "eE")) expo ->
    go_float (whole ++ str "." ++ fraction ++ expo)
| gf_exponent whole expo : digits decimal_digit whole -> go_exponent (str "eE") expo -> go_float (whole ++ expo)
| gf_hex_point x whole fraction expo : one_of (str "xX") x ->
    optional (later_digits hex_digit) whole -> optional (digits hex_digit) fraction ->
    whole <> [] \/ fraction <> [] -> go_exponent (str "pP") expo ->
    go_float ("0"%char :: x :: whole ++ str "." ++ fraction ++ expo)
| gf_hex x whole expo : one_of (str "xX") x -> later_digits hex_digit whole -> go_exponent (str "pP") expo ->
    go_float ("0"%char :: x :: whole ++ expo).

(** https://go.dev/ref/spec#Imaginary_literals *)
Inductive go_imaginary : text -> Prop :=
| gm_digits t : digits decimal_digit t -> go_imaginary (t ++ str "i")
| gm_integer t : go_integer t -> go_imaginary (t ++ str "i")
| gm_float t : go_float t -> go_imaginary (t ++ str "i")
| gm_lenient x t : one_of (str "bBoO") x -> later_digits decimal_digit t -> go_imaginary ("0"%char :: x :: t ++ str "i").

(** ** Characters and strings *)
(** The number that a digit stands for, and a sequence of digits. *)
Definition numeral (c : ascii) : N :=
  if nat_of_ascii c <=? 57 then N_of_ascii c - 48
  else if nat_of_ascii c <=? 70 then N_of_ascii c - 55 else N_of_ascii c - 87.
Definition number_value (base : N) (t : text) : N := fold_left (fun n c => n * base + numeral c)%N t 0%N.
Definition code_point (n : N) : Prop := (n < 55296 \/ 57343 < n <= 1114111)%N.
(** https://go.dev/ref/spec#Rune_literals: what may follow a backslash between quotes [q]. *)
Inductive go_escape (q : ascii) : text -> Prop :=
| es_char c : one_of (str "abfnrtv\") c \/ c = q -> go_escape q [c]
| es_octal t : List.length t = 3 -> Forall octal_digit t -> (number_value 8 t <= 255)%N -> go_escape q t
| es_hex t : List.length t = 2 -> Forall hex_digit t -> go_escape q ("x"%char :: t)
| es_short t : List.length t = 4 -> Forall hex_digit t -> code_point (number_value 16 t) -> go_escape q ("u"%char :: t)
| es_long t : List.length t = 8 -> Forall hex_digit t -> code_point (number_value 16 t) -> go_escape q ("U"%char :: t).
(** One character between quotes [q]. *)
Inductive go_element (q : ascii) : text -> Prop :=
| el_char k : go_char k -> k <> [q] -> k <> [nl] -> k <> str "\" -> go_element q k
| el_escape e : go_escape q e -> go_element q ("\"%char :: e).

Inductive go_lit : litkind -> text -> Prop :=
| gl_int t : go_integer t -> go_lit LInt t
| gl_float t : go_float t -> go_lit LFloat t
| gl_imaginary t : go_imaginary t -> go_lit LImag t
| gl_char t : go_element "'" t -> go_lit LChar (str "'" ++ t ++ str "'")
| gl_string ts : Forall (go_element dquote) ts -> go_lit LString ([dquote] ++ List.concat ts ++ [dquote])
| gl_raw t : go_source t -> ~ In "`"%char t -> ~ In cr t -> go_lit LString (str "`" ++ t ++ str "`").
