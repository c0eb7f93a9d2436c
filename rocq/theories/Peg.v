(** Model of the pigeon runtime in parse/internal/parser/zparser.go:1764-2596.

    Not modelled because no option, grammar expression or flag in this package
    uses them: Options (1666-1735), andExpr/andCodeExpr/notCodeExpr/recoveryExpr/
    throwExpr, ignoreCase, Unicode classes, basicLatinChars, globalStore, Stats.
    ExprCnt is compared with maxExprCnt = MaxUint64 (zparser.go:1977-1979, 2285-2288),
    so that check never fires and the counter is left out. *)
From Verif Require Import Text GoAst Ast Utf8.
From Coq Require Import NArith Arith Bool.
Open Scope N_scope.

(** Dynamic values (interface{}) that flow through the parser (parse/internal/parser/zparser.go:1990-1993 and the results of the actions). *)
Inductive val :=
| VNil
| VBytes (b : text)                (* []byte *)
| VSlice (l : list val)            (* []interface{} *)
| VFile (f : file) | VRule (r : rule) | VValue (v : value)
| VOpcode (c : text) | VParts (ps : list oppart) | VAlt (alts : list text)
| VType (t : text) | VAuxInt (e : gexpr) | VAux (e : gexpr)
| VString (s : text).

(** Result of running an action: value, value with error, or panic (parse/internal/parser/zparser.go:2333-2347). *)
Inductive ares := AOk (v : val) | AErr (msg : text) (v : val) | APanic (msg : text).

(** Labels in scope (one map of the vstack, zparser.go:2032-2033). *)
Definition env := list (text * val).
Fixpoint env_get (e : env) (l : text) : val :=   (* stack["l"]: nil when absent *)
  match e with
  | [] => VNil
  | (k, v) :: e' => if text_eqb k l then v else env_get e' l
  end.

Section Peg.
  (** [A]: the action codes; [run_action a text labels] runs one. *)
  Context {A : Type}.
  Variable run_action : A -> text -> env -> ares.

  (** Grammar expressions, zparser.go:1806-1891. *)
  Inductive pexpr :=
  | PAction (a : A) (e : pexpr)
  | PChoice (es : list pexpr)
  | PLabel (l : text) (e : pexpr)
  | PSeq (es : list pexpr)
  | PNot (e : pexpr)
  | POpt (e : pexpr)        (* zeroOrOneExpr *)
  | PStar (e : pexpr)       (* zeroOrMoreExpr *)
  | PPlus (e : pexpr)       (* oneOrMoreExpr *)
  | PRef (name : text)
  | PLit (runes : list N) (want : text)
  | PClass (name : text) (chars : list N) (ranges : list (N * N)) (inverted : bool)
  | PAny.

  (** The grammar: rule name to expression (buildRulesTable, zparser.go:2193-2198). *)
  Variable grammar : text -> option pexpr.

  (** position, zparser.go:1769-1771. *)
  Record position := mkPos { line : N; col : N; offset : N }.

  (** savepoint, zparser.go:1779-1783.  [rest] is p.data[offset:], kept alongside
      the offset instead of the whole p.data. *)
  Record savepoint := mkPt { pos : position; rest : text; rn : N; w : nat }.

  (** parserError, zparser.go:1941-1946, with the prefix kept as its parts: the
      position and the innermost rule name ([None]: empty rule stack). *)
  Record perror := mkErr { e_inner : text; e_pos : position; e_rule : option text;
                           e_expected : list text }.

  (** The mutable fields of type parser (zparser.go:2020-2055) that influence the
      result: current point, recorded errors, farthest failure. *)
  Record pstate := mkSt {
    pt : savepoint;
    errs : list perror;
    fail_pos : position;
    fail_expected : list text;
    fail_invert : bool
  }.

  (** "p.pt = ...", parse/internal/parser/zparser.go:2181-2186. *)
  Definition set_pt (p : savepoint) (s : pstate) : pstate :=
    mkSt p (errs s) (fail_pos s) (fail_expected s) (fail_invert s).
  (** "p.maxFailInvertExpected = ...", parse/internal/parser/zparser.go:2496-2506. *)
  Definition set_invert (b : bool) (s : pstate) : pstate :=
    mkSt (pt s) (errs s) (fail_pos s) (fail_expected s) b.

  (** addErrAt, zparser.go:2118-2140. *)
  Definition addErrAt (msg : text) (p : position) (rule : option text) (expected : list text)
    (s : pstate) : pstate :=
    mkSt (pt s) (errs s ++ [mkErr msg p rule expected]) (fail_pos s) (fail_expected s) (fail_invert s).

  (** failAt, zparser.go:2142-2159. *)
  Definition failAt (fail : bool) (p : position) (want : text) (s : pstate) : pstate :=
    if Bool.eqb fail (fail_invert s) then
      if offset p <? offset (fail_pos s) then s
      else
        let '(fp, fe) := if offset (fail_pos s) <? offset p then (p, [])
                         else (fail_pos s, fail_expected s) in
        let want := if fail_invert s then str "!" ++ want else want in
        mkSt (pt s) (errs s) fp (fe ++ [want]) (fail_invert s)
    else s.

  (** read, zparser.go:2162-2178. *)
  Definition read_pt (p : savepoint) : savepoint :=
    let off := offset (pos p) + N.of_nat (w p) in
    let r := skipn (w p) (rest p) in
    let '(c, n) := decode_rune r in
    let newline := c =? 10 in
    mkPt (mkPos (if newline then line (pos p) + 1 else line (pos p))
                (if newline then 0 else col (pos p) + 1) off) r c n.
  (** errInvalidEncoding, parse/internal/parser/zparser.go:1647-1664. *)
  Definition invalid_encoding : text := str "invalid encoding".
  (** parser.read, parse/internal/parser/zparser.go:2162-2178. *)
  Definition read (rule : option text) (s : pstate) : pstate :=
    let p := read_pt (pt s) in
    let s := set_pt p s in
    if (rn p =? RuneError) && (w p =? 1)%nat then addErrAt invalid_encoding (pos p) rule [] s else s.

  (** restore, zparser.go:2181-2186. *)
  Definition restore (p : savepoint) (s : pstate) : pstate :=
    if offset (pos p) =? offset (pos (pt s)) then s else set_pt p s.

  (** sliceFrom, zparser.go:2189-2191. *)
  Definition sliceFrom (start : savepoint) (s : pstate) : text :=
    firstn (N.to_nat (offset (pos (pt s)) - offset (pos start))) (rest start).

  (** EOF test used by the matchers, e.g. zparser.go:2370. *)
  Definition at_eof (p : savepoint) : bool := (rn p =? RuneError) && (w p =? 0)%nat.

  (** parseAnyMatcher, zparser.go:2369-2379. *)
  Definition parse_any (rule : text) (s : pstate) : val * bool * pstate :=
    let start := pt s in
    if at_eof start then (VNil, false, failAt false (pos start) (str ".") s)
    else
      let s := read (Some rule) s in
      let s := failAt true (pos start) (str ".") s in
      (VBytes (sliceFrom start s), true, s).

  (** parseCharClassMatcher, zparser.go:2381-2441. *)
  Definition parse_class (rule : text) (v : text) (chars : list N) (ranges : list (N * N))
    (inverted : bool) (s : pstate) : val * bool * pstate :=
    let start := pt s in
    let cur := rn start in
    if at_eof start then (VNil, false, failAt false (pos start) v s)
    else
      let hit := existsb (N.eqb cur) chars
                 || existsb (fun '(lo, hi) => (lo <=? cur) && (cur <=? hi)) ranges in
      if xorb hit inverted then
        let s := read (Some rule) s in
        let s := failAt true (pos start) v s in
        (VBytes (sliceFrom start s), true, s)
      else (VNil, false, failAt false (pos start) v s).

  (** The loop of parseLitMatcher, zparser.go:2471-2482: [None] on mismatch. *)
  Fixpoint lit_loop (rule : text) (rs : list N) (s : pstate) : bool * pstate :=
    match rs with
    | [] => (true, s)
    | want :: rs' =>
        if rn (pt s) =? want then lit_loop rule rs' (read (Some rule) s)
        else (false, s)
    end.

  (** parseLitMatcher, zparser.go:2469-2485. *)
  Definition parse_lit (rule : text) (rs : list N) (want : text) (s : pstate) : val * bool * pstate :=
    let start := pt s in
    match lit_loop rule rs s with
    | (true, s) =>
        let s := failAt true (pos start) want s in
        (VBytes (sliceFrom start s), true, s)
    | (false, s) =>
        let s := failAt false (pos start) want s in
        (VNil, false, restore start s)
    end.

  (** Outcome of parseExpr: value, match flag, labels, state; or a panic (with the
      innermost rule and the state at that moment).  [OutOfFuel] is not a behaviour
      of the code: it says that the model's recursion bound was too small (parse/internal/parser/zparser.go:2283-2331). *)
  Inductive pres :=
  | OutOfFuel
  | PPanic (msg : text) (rule : text) (s : pstate)
  | PRes (v : val) (ok : bool) (e : env) (s : pstate).

  (** parseSeqExpr's loop, zparser.go:2548-2561.  Elements share the labels of the
      enclosing expression. *)
  Definition seq_loop (parse : pexpr -> env -> pstate -> pres) (start : savepoint)
    : list pexpr -> list val -> env -> pstate -> pres :=
    fix loop (es : list pexpr) (vals : list val) (en : env) (s : pstate) : pres :=
      match es with
      | [] => PRes (VSlice vals) true en s
      | e :: es' =>
          match parse e en s with
          | PRes v true en' s' => loop es' (vals ++ [v]) en' s'
          | PRes _ false en' s' => PRes VNil false en' (restore start s')
          | r => r
          end
      end.

  (** parseChoiceExpr's loop, zparser.go:2443-2456: each alternative gets fresh labels
      (pushV/popV, zparser.go:2058-2087). *)
  Definition choice_loop (parse : pexpr -> env -> pstate -> pres)
    : list pexpr -> env -> pstate -> pres :=
    fix loop (es : list pexpr) (en : env) (s : pstate) : pres :=
      match es with
      | [] => PRes VNil false en s
      | e :: es' =>
          match parse e [] s with
          | PRes v true _ s' => PRes v true en s'
          | PRes _ false _ s' => loop es' en s'
          | r => r
          end
      end.

  (** parseExpr and the parse*Expr methods, zparser.go:2274-2596.  [rule] is the top
      of p.rstack.  [fuel] bounds the recursion depth (loop iterations included). *)
  Fixpoint parse_expr (fuel : nat) (rule : text) (e : pexpr) (en : env) (s : pstate) {struct fuel} : pres :=
    match fuel with
    | O => OutOfFuel
    | S n =>
        match e with
        | PAction a e' =>                                  (* zparser.go:2333-2347 *)
            let start := pt s in
            match parse_expr n rule e' en s with
            | PRes v true en' s' =>
                match run_action a (sliceFrom start s') en' with
                | AOk v' => PRes v' true en' s'
                | AErr msg v' => PRes v' true en' (addErrAt msg (pos start) (Some rule) [] s')
                | APanic msg => PPanic msg rule s'
                end
            | r => r
            end
        | PChoice es => choice_loop (parse_expr n rule) es en s
        | PLabel l e' =>                                   (* zparser.go:2458-2467 *)
            match parse_expr n rule e' [] s with
            | PRes v true _ s' => PRes v true ((l, v) :: en) s'
            | PRes v false _ s' => PRes v false en s'
            | r => r
            end
        | PSeq es => seq_loop (parse_expr n rule) (pt s) es [] en s
        | PNot e' =>                                       (* zparser.go:2496-2506 *)
            match parse_expr n rule e' [] (set_invert (negb (fail_invert s)) s) with
            | PRes _ ok _ s' =>
                PRes VNil (negb ok) en (restore (pt s) (set_invert (negb (fail_invert s')) s'))
            | r => r
            end
        | POpt e' =>                                       (* zparser.go:2590-2596 *)
            match parse_expr n rule e' [] s with
            | PRes v _ _ s' => PRes v true en s'
            | r => r
            end
        | PStar e' =>                                      (* zparser.go:2576-2588 *)
            match star_loop n rule e' [] s with
            | PRes v ok _ s' => PRes v ok en s'
            | r => r
            end
        | PPlus e' =>                                      (* zparser.go:2508-2524 *)
            match star_loop n rule e' [] s with
            | PRes (VSlice []) _ _ s' => PRes VNil false en s'
            | PRes v ok _ s' => PRes v ok en s'
            | r => r
            end
        | PRef name =>                                     (* zparser.go:2535-2546, 2274-2281 *)
            match grammar name with
            | None => PRes VNil false en
                        (addErrAt (str "undefined rule: " ++ name) (pos (pt s)) (Some rule) [] s)
            | Some body =>
                match parse_expr n name body [] s with
                | PRes v ok _ s' => PRes v ok en s'
                | r => r
                end
            end
        | PLit v want => let '(x, ok, s') := parse_lit rule v want s in PRes x ok en s'
        | PClass v cs rs inv => let '(x, ok, s') := parse_class rule v cs rs inv s in PRes x ok en s'
        | PAny => let '(x, ok, s') := parse_any rule s in PRes x ok en s'
        end
    end
  (** The loop shared by parseZeroOrMoreExpr and parseOneOrMoreExpr; [vals] are the
      values of the iterations so far (parse/internal/parser/zparser.go:2508-2524, 2576-2588). *)
  with star_loop (fuel : nat) (rule : text) (e : pexpr) (vals : list val) (s : pstate) {struct fuel} : pres :=
    match fuel with
    | O => OutOfFuel
    | S n =>
        match parse_expr n rule e [] s with
        | PRes v true _ s' => star_loop n rule e (vals ++ [v]) s'
        | PRes _ false _ s' => PRes (VSlice vals) true [] s'
        | r => r
        end
    end.

  (** newParser, zparser.go:1954-1982: the state before the first read. *)
  Definition init_state (data : text) : pstate :=
    mkSt (mkPt (mkPos 1 0 0) data 0 0) [] (mkPos 1 1 0) [] false.
End Peg.
Arguments pexpr : clear implicits.
