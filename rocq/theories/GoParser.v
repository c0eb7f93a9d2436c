(** Reference model of the standard library's go/parser.ParseExpr (Go 1.16), for
    the expression fragment that the repository accepts.

    /repo calls it as an external function (parse/internal/goexpr/parse.go:12);
    nothing here models code of /repo.  All theorems about the rules parser hold
    for ANY function in its place; this file is used to state the concrete
    corollaries and findings.  Outside the fragment the model answers [Err]
    although go/parser may succeed with a node type (index, slice, composite
    literal, function literal, type expression, type assertion) that
    goexpr.Parse then rejects: the outcome of goexpr.Parse is an error either
    way.  Simplifications: line directives in comments
    are ignored; error messages are not those of go/parser.  go/scanner goes on
    after an error, but ParseExpr fails if there was any, so the model stops. *)
From Verif Require Import Text GoAst Utf8 Unicode.
From Coq Require Import NArith Arith Bool.
Open Scope nat_scope.
Open Scope list_scope.
Open Scope res_scope.

Inductive gtoken :=
| TIdent (name : text)
| TLit (k : litkind) (v : text)
| TOp (o : gotok)
| TLParen | TRParen | TComma | TDot | TEllipsis
| TSemi       (* automatically inserted at a newline or at the end *)
| TBad.       (* any other token of the language *)

(** A token and its position (1-based byte offset). *)
Definition ptok := (gtoken * gopos)%type.

Definition is_digit (c : ascii) : bool := in_range "0" "9" c.
(** The bytes of which names are made, and keywords: those of a character beyond ASCII
    are included, and looked at after that ([name_runes]): if it is not a letter
    it is an illegal character, wherever outside of literals and comments it is. *)
Definition high (c : ascii) : bool := (128 <=? byte_val c)%N.
Definition is_letter (c : ascii) : bool :=
  in_range "a" "z" c || in_range "A" "Z" c || (if ascii_dec c "_" then true else false) || high c.
Definition is_alnum (c : ascii) : bool := is_letter c || is_digit c.
Definition is_hex (c : ascii) : bool :=
  is_digit c || in_range "a" "f" c || in_range "A" "F" c.
Definition is_oct (c : ascii) : bool := in_range "0" "7" c.
Definition ch (a b : ascii) : bool := if ascii_dec a b then true else false.

(** Longest prefix satisfying [p], and the rest. *)
Fixpoint span (p : ascii -> bool) (s : text) : text * text :=
  match s with
  | c :: s' => if p c then let '(a, b) := span p s' in (c :: a, b) else ([], s)
  | [] => ([], [])
  end.

Definition keywords : list string :=
  ["break"; "case"; "chan"; "const"; "continue"; "default"; "defer"; "else";
   "fallthrough"; "for"; "func"; "go"; "goto"; "if"; "import"; "interface"; "map";
   "package"; "range"; "return"; "select"; "struct"; "switch"; "type"; "var"]%string.
Definition is_keyword (s : text) : bool := existsb (fun k => text_eqb (str k) s) keywords.

(** scanner.isLetter and scanner.isDigit, on code points. *)
Definition in_ranges (ranges : list (N * N)) (r : N) : bool := existsb (fun p => (fst p <=? r) && (r <=? snd p))%N ranges.
Definition rune_letter (r : N) : bool :=
  ((97 <=? r) && (r <=? 122) || (65 <=? r) && (r <=? 90) || (r =? 95) || (128 <=? r) && in_ranges letter_ranges r)%N.
Definition rune_digit (r : N) : bool :=
  ((48 <=? r) && (r <=? 57) || (128 <=? r) && in_ranges digit_ranges r)%N.
(** scanner.scanIdentifier *)
Fixpoint name_runes (fuel : nat) (first : bool) (s : text) : bool :=
  match fuel, s with
  | _, [] => true
  | O, _ => false
  | S n, _ =>
      let '(r, w) := decode_rune s in
      (rune_letter r || negb first && rune_digit r) && name_runes n false (skipn w s)
  end.
Definition good_name (w : text) : bool := name_runes (List.length w) true w.

Definition is_nil {A} (l : list A) : bool := match l with [] => true | _ => false end.

(** Numbers (scanner.scanNumber): the literal is cut into a prefix, integer digits,
    fraction, exponent and suffix, whatever the digits; then it is checked. *)
Inductive radix := Decimal | Legacy (* 0-octal *) | Hexadecimal | Octal | Binary.
(** scanner.digits goes over these *)
Definition in_digits (x : radix) (c : ascii) : bool :=
  match x with Hexadecimal => is_hex c | _ => is_digit c end || ch c "_".
(** and records as invalid the others than these. *)
Definition digit_of (x : radix) (c : ascii) : bool :=
  match x with
  | Decimal => is_digit c | Hexadecimal => is_hex c
  | Legacy | Octal => is_oct c | Binary => ch c "0" || ch c "1"
  end.
(** Radix, prefix, rest (the leading zero of a 0-octal literal is one of its digits). *)
Definition cut_prefix (s : text) : radix * text * text :=
  match s with
  | z :: r =>
      if ch z "0" then
        match r with
        | x :: r' =>
            if ch x "x" || ch x "X" then (Hexadecimal, [z; x], r')
            else if ch x "o" || ch x "O" then (Octal, [z; x], r')
            else if ch x "b" || ch x "B" then (Binary, [z; x], r')
            else (Legacy, [], s)
        | [] => (Legacy, [], s)
        end
      else (Decimal, [], s)
  | [] => (Decimal, [], s)
  end.
(** The radix point and the digits after it. *)
Definition cut_fraction (x : radix) (s : text) : text * text :=
  match s with
  | c :: r => if ch c "." then let '(d, r') := span (in_digits x) r in (c :: d, r') else ([], s)
  | [] => ([], s)
  end.
(** The exponent's letter and sign, its digits, the rest. *)
Definition cut_exponent (s : text) : text * text * text :=
  match s with
  | e :: r =>
      if ch e "e" || ch e "E" || ch e "p" || ch e "P" then
        let '(sg, r1) := match r with
                         | c :: r' => if ch c "+" || ch c "-" then ([c], r') else ([], r)
                         | [] => ([], r)
                         end in
        let '(d, r2) := span (in_digits Decimal) r1 in (e :: sg, d, r2)
      else ([], [], s)
  | [] => ([], [], s)
  end.
Definition cut_suffix (s : text) : text * text :=
  match s with c :: r => if ch c "i" then ([c], r) else ([], s) | [] => ([], s) end.

(** scanner.invalidSep: an underscore stands between digits (a prefix counts as one).
    The state tells what the last character was. *)
Inductive sepstate := SepNone | SepDigit | SepUnderscore.
Definition sep_step (hex : bool) (d : sepstate) (c : ascii) : option sepstate :=
  if ch c "_" then match d with SepDigit => Some SepUnderscore | _ => None end
  else if is_digit c || (hex && is_hex c) then Some SepDigit
  else match d with SepUnderscore => None | _ => Some SepNone end.
Fixpoint sep_run (hex : bool) (d : sepstate) (s : text) : option sepstate :=
  match s with
  | [] => Some d
  | c :: s' => match sep_step hex d c with Some d' => sep_run hex d' s' | None => None end
  end.
Definition sep_ok (x : radix) (pre s : text) : bool :=
  let hex := match x with Hexadecimal => true | _ => false end in
  match sep_run hex (if is_nil pre then SepNone else SepDigit) s with
  | Some SepUnderscore | None => false
  | Some _ => true
  end.

Definition has_digit (s : text) : bool := existsb (fun c => negb (ch c "_")) s.
Definition number_kind (fr es im : text) : litkind :=
  if negb (is_nil im) then LImag else if is_nil fr && is_nil es then LInt else LFloat.
(** The errors of scanNumber, in order: radix point in a binary or octal literal; no
    digits; exponent for the wrong radix or without digits, or missing from a
    hexadecimal float; invalid digit in an integer; misplaced underscore. *)
Definition number_valid (x : radix) (pre d1 fr es ed im : text) : bool :=
  (is_nil fr || match x with Octal | Binary => false | _ => true end) &&
  (has_digit d1 || has_digit (tl fr)) &&
  match es with
  | e :: _ =>
      (if ch e "e" || ch e "E" then match x with Decimal | Legacy => true | _ => false end
       else match x with Hexadecimal => true | _ => false end) && has_digit ed
  | [] => is_nil fr || match x with Hexadecimal => false | _ => true end
  end &&
  (match number_kind fr es im with LInt => forallb (fun c => digit_of x c || ch c "_") d1 | _ => true end) &&
  sep_ok x pre (d1 ++ fr ++ es ++ ed ++ im).
(** The literal's kind, its text and the rest; [None] when malformed. *)
Definition lex_number (s : text) : option (litkind * text * text) :=
  let '(x, pre, s0) := cut_prefix s in
  let '(d1, s1) := span (in_digits x) s0 in
  let '(fr, s2) := cut_fraction x s1 in
  let '(es, ed, s3) := cut_exponent s2 in
  let '(im, s4) := cut_suffix s3 in
  if number_valid x pre d1 fr es ed im
  then Some (number_kind fr es im, pre ++ d1 ++ fr ++ es ++ ed ++ im, s4)
  else None.

(** The rest of a quoted literal up to and including the closing quote [q]; a
    backslash protects the next character unless [raw].  Finds the end; the contents
    are checked after that. *)
Fixpoint quoted (q : ascii) (raw : bool) (s : text) : option (text * text) :=
  match s with
  | [] => None
  | c :: s' =>
      if ch c q then Some ([c], s')
      else if negb raw && ch c nl then None
      else if negb raw && ch c "\" then
        match s' with
        | d :: s'' =>
            if ch d nl then None
            else match quoted q raw s'' with Some (a, b) => Some (c :: d :: a, b) | None => None end
        | [] => None
        end
      else match quoted q raw s' with Some (a, b) => Some (c :: a, b) | None => None end
  end.

(** scanner.scanEscape: the rest after the escape sequence that starts after a
    backslash; [None] when it is not one. *)
Definition digit_val (c : ascii) : N :=
  if is_digit c then byte_val c - 48
  else if in_range "a" "f" c then byte_val c - 87
  else if in_range "A" "F" c then byte_val c - 55
  else 16.
Fixpoint escape_digits (n : nat) (base x : N) (s : text) : option (N * text) :=
  match n with
  | O => Some (x, s)
  | S n' =>
      match s with
      | c :: s' => if (digit_val c <? base)%N then escape_digits n' base (x * base + digit_val c)%N s' else None
      | [] => None
      end
  end.
Definition escape_code (n : nat) (base max : N) (s : text) : option text :=
  match escape_digits n base 0 s with
  | Some (x, r) => if ((max <? x) || ((55296 <=? x) && (x <? 57344)))%N then None else Some r
  | None => None
  end.
Definition escape (q : ascii) (s : text) : option text :=
  match s with
  | [] => None
  | c :: r =>
      if existsb (ch c) (str "abfnrtv\") || ch c q then Some r
      else if is_oct c then escape_code 3 8 255 s
      else if ch c "x" then escape_code 2 16 255 r
      else if ch c "u" then escape_code 4 16 1114111 r
      else if ch c "U" then escape_code 8 16 1114111 r
      else None
  end.
(** How many characters and escape sequences stand before the closing quote [q] that
    ends the text; [None] when an escape sequence is wrong (scanner.scanString,
    scanRune). *)
Fixpoint elements (fuel : nat) (q : ascii) (s : text) : option nat :=
  match fuel, s with
  | S n, c :: s' =>
      if ch c q then (if is_nil s' then Some 0 else None)
      else
        let rest := if ch c "\" then escape q s' else Some (skipn (snd (decode_rune s)) s) in
        match rest with Some r => option_map S (elements n q r) | None => None end
  | _, _ => None
  end.
Definition good_quoted (q : ascii) (a : text) : bool :=
  match elements (List.length a) q a with
  | Some n => if ch q "'" then n =? 1 else true
  | None => false
  end.

(** The rest after the closing of a general comment; the boolean tells whether
    it contained a newline. *)
Fixpoint comment_end (s : text) (hasnl : bool) : option (bool * text) :=
  match s with
  | [] => None
  | c :: s' =>
      match s' with
      | d :: s'' =>
          if ch c "*" && ch d "/" then Some (hasnl, s'')
          else comment_end s' (hasnl || ch c nl)
      | [] => None
      end
  end.

(** Operators and punctuation by longest match. *)
Definition operators : list (string * gtoken) :=
  [ ("<<=", TBad); (">>=", TBad); ("&^=", TBad); ("...", TEllipsis);
    ("&&", TOp LAND); ("||", TOp LOR); ("==", TOp EQL); ("!=", TOp NEQ);
    ("<=", TOp LEQ); (">=", TOp GEQ); ("<<", TOp SHL); (">>", TOp SHR);
    ("&^", TOp AND_NOT); ("<-", TOp ARROW);
    ("++", TBad); ("--", TBad); ("+=", TBad); ("-=", TBad); ("*=", TBad); ("/=", TBad);
    ("%=", TBad); ("&=", TBad); ("|=", TBad); ("^=", TBad); (":=", TBad);
    ("+", TOp ADD); ("-", TOp SUB); ("*", TOp MUL); ("/", TOp QUO); ("%", TOp REM);
    ("&", TOp AND); ("|", TOp OR); ("^", TOp XOR); ("<", TOp LSS); (">", TOp GTR);
    ("!", TOp NOT); ("(", TLParen); (")", TRParen); (",", TComma); (".", TDot);
    ("[", TBad); ("]", TBad); ("{", TBad); ("}", TBad); (";", TBad); (":", TBad);
    ("=", TBad) ]%string.
Definition lex_operator (s : text) : option (gtoken * nat) :=
  match find (fun p => has_prefix (str (fst p)) s) operators with
  | Some (o, t) => Some (t, String.length o)
  | None => None
  end.

(** Whether a newline after the token inserts a semicolon. *)
Definition ends_statement (t : gtoken) : bool :=
  match t with TIdent _ | TLit _ _ | TRParen => true | _ => false end.

(** scanner.Scan repeated to the end of the input.  [semi]: s.insertSemi. *)
Fixpoint lex (fuel : nat) (semi : bool) (pos : gopos) (s : text) : res (list ptok) :=
  match fuel with
  | O => Panic (str "model: lexer out of fuel")
  | S n =>
      let emit (t : gtoken) (semi' : bool) (len : nat) (s' : text) : res (list ptok) :=
        let* ts := lex n semi' (pos + N.of_nat len)%N s' in Ok ((t, pos) :: ts) in
      match s with
      | [] => if semi then Ok [(TSemi, pos)] else Ok []
      | c :: s' =>
          if ch c nl then
            if semi then emit TSemi false 1 s' else lex n false (pos + 1)%N s'
          else if ch c sp || ch c tab || ch c cr then lex n semi (pos + 1)%N s'
          else if is_letter c then
            let '(w, r) := span is_alnum s in
            if is_keyword w then emit TBad false (List.length w) r
            else if good_name w then emit (TIdent w) true (List.length w) r
            else Err (str "illegal character")
          else if is_digit c || (ch c "." && match s' with d :: _ => is_digit d | [] => false end) then
            match lex_number s with
            | Some (k, v, r) => emit (TLit k v) true (List.length v) r
            | None => Err (str "malformed number")
            end
          else if ch c dquote then
            match quoted dquote false s' with
            | Some (a, r) =>
                if good_quoted dquote a then emit (TLit LString (c :: a)) true (S (List.length a)) r
                else Err (str "unknown escape sequence")
            | None => Err (str "string literal not terminated")
            end
          else if ch c "'" then
            match quoted "'" false s' with
            | Some (a, r) =>
                if good_quoted "'" a then emit (TLit LChar (c :: a)) true (S (List.length a)) r
                else Err (str "illegal rune literal")
            | None => Err (str "rune literal not terminated")
            end
          else if ch c "`" then
            match quoted "`" true s' with
            | Some (a, r) =>
                emit (TLit LString (c :: filter (fun x => negb (ch x cr)) a)) true (S (List.length a)) r
            | None => Err (str "raw string literal not terminated")
            end
          else
            match s' with
            | d :: s'' =>
                if ch c "/" && ch d "/" then           (* line comment *)
                  let '(a, r) := span (fun x => negb (ch x nl)) s'' in
                  lex n semi (pos + 2 + N.of_nat (List.length a))%N r
                else if ch c "/" && ch d "*" then      (* general comment *)
                  match comment_end s'' false with
                  | None => Err (str "comment not terminated")
                  | Some (hasnl, r) =>
                      let pos' := (pos + N.of_nat (List.length s - List.length r))%N in
                      if semi && hasnl then
                        let* ts := lex n false pos' r in Ok ((TSemi, pos) :: ts)
                      else lex n semi pos' r
                  end
                else match lex_operator s with
                     | Some (t, k) => emit t (ends_statement t) k (skipn k s)
                     | None => Err (str "illegal character")
                     end
            | [] => match lex_operator s with
                    | Some (t, k) => emit t (ends_statement t) k (skipn k s)
                    | None => Err (str "illegal character")
                    end
            end
      end
  end.

(** scanner.next: the source is UTF-8 without NUL and, except at the start, without
    byte order marks. *)
Fixpoint source_chars (fuel : nat) (s : text) : bool :=
  match fuel, s with
  | _, [] => true
  | O, _ => false
  | S n, _ =>
      let '(r, w) := decode_rune s in
      negb ((r =? RuneError)%N && (w =? 1)) && negb (r =? 0)%N && negb (r =? 65279)%N && source_chars n (skipn w s)
  end.
Definition bom : text := bytes_of [239; 187; 191]%N.
Definition scan_from (pos : gopos) (s : text) : res (list ptok) :=
  if source_chars (List.length s) s then lex (S (List.length s)) false pos s
  else Err (str "illegal character").
(** The whole source, after a byte order mark (scanner.Init). *)
Definition scan (s : text) : res (list ptok) :=
  if has_prefix bom s then scan_from 4%N (skipn 3 s) else scan_from 1%N s.

(** The expression parser. *)
Definition unary_op (o : gotok) : bool :=
  match o with ADD | SUB | NOT | XOR | AND | ARROW => true | _ => false end.
Definition pout := res (gexpr * list ptok).
Definition syntax_error {A} : res A := Err (str "syntax error").

Fixpoint gp_binary (fuel : nat) (prec : nat) (ts : list ptok) {struct fuel} : pout :=
  match fuel with
  | O => Panic (str "model: parser out of fuel")
  | S n =>
      let* xt := gp_unary n ts in
      let '(x, ts) := xt in
      gp_binloop n prec x ts
  end
with gp_binloop (fuel : nat) (prec : nat) (x : gexpr) (ts : list ptok) {struct fuel} : pout :=
  match fuel with
  | O => Panic (str "model: parser out of fuel")
  | S n =>
      match ts with
      | (TOp o, p) :: ts' =>
          if (0 <? tok_prec o) && (prec <=? tok_prec o) then
            let* yt := gp_binary n (S (tok_prec o)) ts' in
            let '(y, ts'') := yt in
            gp_binloop n prec (GBinary x p o y) ts''
          else Ok (x, ts)
      | _ => Ok (x, ts)
      end
  end
with gp_unary (fuel : nat) (ts : list ptok) {struct fuel} : pout :=
  match fuel with
  | O => Panic (str "model: parser out of fuel")
  | S n =>
      match ts with
      | (TOp o, p) :: ts' =>
          if unary_op o then
            let* xt := gp_unary n ts' in let '(x, ts'') := xt in Ok (GUnary p o x, ts'')
          else match o with
               | MUL => let* xt := gp_unary n ts' in let '(x, ts'') := xt in Ok (GStar p x, ts'')
               | _ => syntax_error
               end
      | (TIdent name, p) :: ts' => gp_primary n (GIdent p name) ts'
      | (TLit k v, p) :: ts' => gp_primary n (GBasicLit p k v) ts'
      | (TLParen, p) :: ts' =>
          let* xt := gp_binary n 1 ts' in
          let '(x, ts'') := xt in
          match ts'' with
          | (TRParen, q) :: ts3 => gp_primary n (GParen p x q) ts3
          | _ => syntax_error
          end
      | _ => syntax_error
      end
  end
with gp_primary (fuel : nat) (x : gexpr) (ts : list ptok) {struct fuel} : pout :=
  match fuel with
  | O => Panic (str "model: parser out of fuel")
  | S n =>
      match ts with
      | (TDot, _) :: (TIdent name, p) :: ts' => gp_primary n (GSelector x p name) ts'
      | (TDot, _) :: _ => syntax_error
      | (TLParen, p) :: ts' =>
          let* r := gp_args n ts' in
          let '(args, el, q, ts'') := r in
          gp_primary n (GCall x p args el q) ts''
      | _ => Ok (x, ts)
      end
  end
(** Arguments after the opening parenthesis: arguments, position of "..." (NoPos
    when absent), position of the closing parenthesis, rest. *)
with gp_args (fuel : nat) (ts : list ptok) {struct fuel}
  : res (list gexpr * gopos * gopos * list ptok) :=
  match fuel with
  | O => Panic (str "model: parser out of fuel")
  | S n =>
      match ts with
      | (TRParen, q) :: ts' => Ok ([], NoPos, q, ts')
      | _ =>
          let* at_ := gp_binary n 1 ts in
          let '(a, ts') := at_ in
          match ts' with
          | (TEllipsis, e) :: (TRParen, q) :: ts'' => Ok ([a], e, q, ts'')
          | (TEllipsis, e) :: (TComma, _) :: (TRParen, q) :: ts'' => Ok ([a], e, q, ts'')
          | (TComma, _) :: ts'' =>
              let* r := gp_args n ts'' in
              let '(args, el, q, ts3) := r in Ok (a :: args, el, q, ts3)
          | (TRParen, q) :: ts'' => Ok ([a], NoPos, q, ts'')
          | _ => syntax_error
          end
      end
  end.

(** go/parser.ParseExpr *)
Definition ParseExpr (s : text) : res gexpr :=
  let* ts := scan s in
  let* r := gp_binary (4 * List.length ts + 4) 1 ts in
  let '(e, rest) := r in
  match rest with
  | [] => Ok e
  | [(TSemi, _)] => Ok e
  | _ => syntax_error
  end.
