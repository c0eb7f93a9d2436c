(** The expression counter of the pigeon runtime: ExprCnt and maxExprCnt
    (zparser.go:1659-1661, 1977-1979, 2283-2288), left out of Peg.v. *)
From Verif Require Import Text GoAst Ast Utf8 GoExpr Peg Grammar Parse.
From Coq Require Import NArith Arith Bool.
Open Scope N_scope.

(** errMaxExprCnt, zparser.go:1661 (the spelling is the code's). *)
Definition errMaxExprCnt : text := str "max number of expresssions parsed".

Section Count.
  Context {A : Type}.
  Variable run_action : A -> text -> env -> ares.
  Variable grammar : text -> option (pexpr A).
  (** p.maxExprCnt *)
  Variable limit : N.

  (** As Peg.v's seq_loop and choice_loop, threading p.ExprCnt (parse/internal/parser/zparser.go:2548-2561). *)
  Definition cseq_loop (parse : pexpr A -> env -> pstate -> N -> pres * N) (start : savepoint)
    : list (pexpr A) -> list val -> env -> pstate -> N -> pres * N :=
    fix loop (es : list (pexpr A)) (vals : list val) (en : env) (s : pstate) (k : N) : pres * N :=
      match es with
      | [] => (PRes (VSlice vals) true en s, k)
      | e :: es' =>
          match parse e en s k with
          | (PRes v true en' s', k') => loop es' (vals ++ [v]) en' s' k'
          | (PRes _ false en' s', k') => (PRes VNil false en' (restore start s'), k')
          | r => r
          end
      end.
  (** The loop of parseChoiceExpr, parse/internal/parser/zparser.go:2443-2456. *)
  Definition cchoice_loop (parse : pexpr A -> env -> pstate -> N -> pres * N)
    : list (pexpr A) -> env -> pstate -> N -> pres * N :=
    fix loop (es : list (pexpr A)) (en : env) (s : pstate) (k : N) : pres * N :=
      match es with
      | [] => (PRes VNil false en s, k)
      | e :: es' =>
          match parse e [] s k with
          | (PRes v true _ s', k') => (PRes v true en s', k')
          | (PRes _ false _ s', k') => loop es' en s' k'
          | r => r
          end
      end.

  (** parseExpr with its first lines (zparser.go:2283-2288); the rest as in Peg.v.
      [k] is p.ExprCnt. *)
  Fixpoint cparse_expr (fuel : nat) (rule : text) (e : pexpr A) (en : env) (s : pstate) (k : N) {struct fuel} : pres * N :=
    match fuel with
    | O => (OutOfFuel, k)
    | S n =>
        let k := k + 1 in
        if limit <? k then (PPanic errMaxExprCnt rule s, k)
        else
        match e with
        | PAction a e' =>
            let start := pt s in
            match cparse_expr n rule e' en s k with
            | (PRes v true en' s', k) =>
                match run_action a (sliceFrom start s') en' with
                | AOk v' => (PRes v' true en' s', k)
                | AErr msg v' => (PRes v' true en' (addErrAt msg (pos start) (Some rule) [] s'), k)
                | APanic msg => (PPanic msg rule s', k)
                end
            | r => r
            end
        | PChoice es => cchoice_loop (cparse_expr n rule) es en s k
        | PLabel l e' =>
            match cparse_expr n rule e' [] s k with
            | (PRes v true _ s', k) => (PRes v true ((l, v) :: en) s', k)
            | (PRes v false _ s', k) => (PRes v false en s', k)
            | r => r
            end
        | PSeq es => cseq_loop (cparse_expr n rule) (pt s) es [] en s k
        | PNot e' =>
            match cparse_expr n rule e' [] (set_invert (negb (fail_invert s)) s) k with
            | (PRes _ ok _ s', k) =>
                (PRes VNil (negb ok) en (restore (pt s) (set_invert (negb (fail_invert s')) s')), k)
            | r => r
            end
        | POpt e' =>
            match cparse_expr n rule e' [] s k with
            | (PRes v _ _ s', k) => (PRes v true en s', k)
            | r => r
            end
        | PStar e' =>
            match cstar_loop n rule e' [] s k with
            | (PRes v ok _ s', k) => (PRes v ok en s', k)
            | r => r
            end
        | PPlus e' =>
            match cstar_loop n rule e' [] s k with
            | (PRes (VSlice []) _ _ s', k) => (PRes VNil false en s', k)
            | (PRes v ok _ s', k) => (PRes v ok en s', k)
            | r => r
            end
        | PRef name =>
            match grammar name with
            | None => (PRes VNil false en
                        (addErrAt (str "undefined rule: " ++ name) (pos (pt s)) (Some rule) [] s), k)
            | Some body =>
                match cparse_expr n name body [] s k with
                | (PRes v ok _ s', k) => (PRes v ok en s', k)
                | r => r
                end
            end
        | PLit v want => let '(x, ok, s') := parse_lit rule v want s in (PRes x ok en s', k)
        | PClass v cs rs inv => let '(x, ok, s') := parse_class rule v cs rs inv s in (PRes x ok en s', k)
        | PAny => let '(x, ok, s') := parse_any rule s in (PRes x ok en s', k)
        end
    end
  (** The loop of parseZeroOrMoreExpr and parseOneOrMoreExpr, parse/internal/parser/zparser.go:2508-2524, 2576-2588. *)
  with cstar_loop (fuel : nat) (rule : text) (e : pexpr A) (vals : list val) (s : pstate) (k : N) {struct fuel} : pres * N :=
    match fuel with
    | O => (OutOfFuel, k)
    | S n =>
        match cparse_expr n rule e [] s k with
        | (PRes v true _ s', k) => cstar_loop n rule e (vals ++ [v]) s' k
        | (PRes _ false _ s', k) => (PRes (VSlice vals) true [] s', k)
        | r => r
        end
    end.
End Count.

Section Api.
  Variable gp : text -> res gexpr.

  (** p.maxExprCnt when no option sets it: math.MaxUint64, zparser.go:1977-1979. *)
  Definition maxExprCnt : N := 18446744073709551615.

  (** The run of parser.parse with the counter, which starts at zero (Stats{...},
      zparser.go:1955-1957). *)
  Definition counted_run (limit : N) (data : text) : pres * N :=
    cparse_expr (run_action gp) the_grammar limit (parse_bound data) (str "File") g_File [] (read None (init_state data)) 0.

  (** parser.parse and cast as in Parse.v, with the counter (parse/internal/parser/zparser.go:2200-2261). *)
  Definition counted_Parse (filename data : text) : res file :=
    match fst (counted_run maxExprCnt data) with
    | OutOfFuel => Panic (str "model: out of fuel")
    | PPanic msg rule s => cast VNil (errlist_err filename (errs (addErrAt msg (pos (pt s)) (Some rule) [] s)))
    | PRes v true _ s => cast v (errlist_err filename (errs s))
    | PRes _ false _ s =>
        match errs s with
        | [] => cast VNil (errlist_err filename (errs (addErrAt (no_match (fail_expected s)) (fail_pos s) None
                                           (expected_list (fail_expected s)) s)))
        | es => cast VNil (errlist_err filename es)
        end
    end.
End Api.
