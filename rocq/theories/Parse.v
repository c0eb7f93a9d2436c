(** Model of the entry points of the parser: parse/parse.go and
    parse/internal/parser/zparser.go:1738-1766,1893-1982,2114-2140,2200-2281. *)
From Verif Require Import Text GoAst Ast Utf8 GoExpr Peg Grammar.
From Coq Require Import NArith Arith Bool DecimalString.
Open Scope N_scope.

(** fmt's %d for a non-negative int (parse/internal/parser/zparser.go:2126). *)
Definition decN (n : N) : text := str (NilZero.string_of_uint (N.to_uint n)).

(** The prefix built by addErrAt, zparser.go:2119-2137 (no rule has a display
    name), and parserError.Error, zparser.go:1949-1951. *)
Definition render_pos (p : position) : text :=
  decN (line p) ++ str ":" ++ decN (col p) ++ str " (" ++ decN (offset p) ++ str ")".
(** parserError.Error, parse/internal/parser/zparser.go:1949-1951, with the prefix that addErrAt builds, parse/internal/parser/zparser.go:2118-2140. *)
Definition render_error (filename : text) (e : perror) : text :=
  (match filename with [] => [] | _ => filename ++ str ":" end) ++
  render_pos (e_pos e) ++
  (match e_rule e with None => [] | Some r => str ": rule " ++ r end) ++
  str ": " ++ e_inner e.

(** errList.dedupe, zparser.go:1908-1918: keeps the first error of each message. *)
Fixpoint dedupe (seen : list text) (es : list text) : list text :=
  match es with
  | [] => []
  | e :: es' => if existsb (text_eqb e) seen then dedupe seen es' else e :: dedupe (e :: seen) es'
  end.

(** strings.Join (parse/internal/parser/zparser.go:2270). *)
Fixpoint join_with (sep : text) (l : list text) : text :=
  match l with
  | [] => []
  | [x] => x
  | x :: l' => x ++ sep ++ join_with sep l'
  end.

(** errList.err and errList.Error, zparser.go:1900-1938: [None] is a nil error. *)
Definition errlist_err (filename : text) (es : list perror) : option text :=
  match es with
  | [] => None
  | _ => Some (join_with [nl] (dedupe [] (map (render_error filename) es)))
  end.

(** sort.Strings: ascending by bytes (parse/internal/parser/zparser.go:2251). *)
Fixpoint text_leb (a b : text) : bool :=
  match a, b with
  | [], _ => true
  | _ :: _, [] => false
  | x :: a', y :: b' =>
      if byte_val x <? byte_val y then true
      else if byte_val y <? byte_val x then false else text_leb a' b'
  end.
(** Insertion, for [sort_texts]. *)
Fixpoint insert_text (x : text) (l : list text) : list text :=
  match l with
  | [] => [x]
  | y :: l' => if text_leb x y then x :: l else y :: insert_text x l'
  end.
(** sort.Strings, used at parse/internal/parser/zparser.go:2251. *)
Definition sort_texts (l : list text) : list text := fold_right insert_text [] l.

(** listJoin, zparser.go:2263-2272. *)
Definition listJoin (l : list text) (sep lastSep : text) : text :=
  match l with
  | [] => []
  | [x] => x
  | _ => join_with sep (removelast l) ++ str " " ++ lastSep ++ str " " ++ last l []
  end.

(** The expected list of a failed parse, zparser.go:2236-2253. *)
Definition expected_list (fe : list text) : list text :=
  let m := dedupe [] fe in
  let eof := existsb (text_eqb (str "!.")) m in
  let rest := filter (fun w => negb (text_eqb (str "!.") w)) m in
  sort_texts rest ++ (if eof then [str "EOF"] else []).

(** The "no match found, expected: ..." of parser.parse, parse/internal/parser/zparser.go:2255, and listJoin, parse/internal/parser/zparser.go:2263-2272. *)
Definition no_match (fe : list text) : text :=
  str "no match found, expected: " ++ listJoin (expected_list fe) (str ", ") (str "or").

Section Api.
  (** go/parser.ParseExpr: external. *)
  Variable gp : text -> res gexpr.

  (** parser.parse, zparser.go:2200-2261, together with parseRule at the entry
      point (2274-2281).  The result is (val, errors); [None]: recursion bound of
      the model too small. *)
  Definition parse_fuel (fuel : nat) (data : text) : option (val * list perror) :=
    let s := read None (init_state data) in
    match parse_expr (run_action gp) the_grammar fuel (str "File") g_File [] s with
    | OutOfFuel => None
    | PPanic msg rule s => Some (VNil, errs (addErrAt msg (pos (pt s)) (Some rule) [] s))
    | PRes v true _ s => Some (v, errs s)
    | PRes _ false _ s =>
        match errs s with
        | [] => Some (VNil, errs (addErrAt (no_match (fail_expected s)) (fail_pos s) None
                                           (expected_list (fail_expected s)) s))
        | es => Some (VNil, es)
        end
    end.

  (** A recursion bound that is always enough (theorem parse_terminates) (not in the code: Go has no such bound). *)
  Definition parse_bound (data : text) : nat := 64 * (List.length data + 2).

  (** cast, parse/parse.go:30-35: a nil error means the value must be a *ast.File. *)
  Definition cast (v : val) (err : option text) : res file :=
    match err with
    | Some e => Err e
    | None => match v with
              | VFile f => Ok f
              | _ => Panic (str "interface conversion: interface {} is not *ast.File")
              end
    end.

  (** parser.Parse, zparser.go:1764-1766, followed by cast. *)
  Definition Parse (filename data : text) : res file :=
    match parse_fuel (parse_bound data) data with
    | None => Panic (str "model: out of fuel")
    | Some (v, es) => cast v (errlist_err filename es)
    end.

  (** parse.Reader, parse/parse.go:18-22 with parser.ParseReader, zparser.go:1753-1760.
      [r]: what ioutil.ReadAll returns for the reader. *)
  Definition Reader (filename : text) (r : res text) : res file :=
    match r with
    | Ok b => Parse filename b
    | Err e => Err e
    | Panic m => Panic m
    end.

  (** parse.String, parse/parse.go:25-27. *)
  Definition String_ (s : text) : res file := Reader (str "string") (Ok s).

  (** parse.File, parse/parse.go:12-15 with parser.ParseFile, zparser.go:1738-1749:
      [opened] is the error of os.Open, [r] what reading gives, [closed] the error
      of Close, which replaces the result. *)
  Definition File_ (filename : text) (opened : option text) (r : res text) (closed : option text)
    : res file :=
    match opened with
    | Some e => Err e
    | None =>
        match closed, Reader filename r with
        | Some e, Panic m => Panic m
        | Some e, _ => Err e
        | None, x => x
        end
    end.
End Api.
