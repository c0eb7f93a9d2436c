(** Model of the parser's actions (parse/internal/parser/zparser.go:1384-1645) and of the engine
    that runs them, on the heap of Heap.v: which cells a parse makes.  Peg.v, Grammar.v and Parse.v
    model the same functions on trees; HeapParseFacts.v relates the two.  Simplifications: a struct
    that a function is still filling in is a local record, made when it is complete (nobody else can
    see it before); the []interface{} slices that flow through the engine are lists; an ast.OpcodeAlt
    is part of the ast.OpcodeParts it is put into; what the engine itself keeps (positions, errors, labels)
    is not on the heap. *)
From Verif Require Import Text GoAst Ast Utf8 GoExpr Peg Grammar Parse Heap.
From Coq Require Import NArith Arith Bool.
Open Scope nat_scope.
Open Scope list_scope.

(** Dynamic values (interface{}) with pointers (parse/internal/parser/zparser.go:1384-1639). *)
Inductive hval :=
| HVNil
| HVBytes (b : text)                (* []byte *)
| HVSlice (l : list hval)           (* []interface{} *)
| HVFile (p : nat) | HVRule (p : nat) | HVValue (w : word)
| HVOpcode (c : text) | HVParts (a : nat) | HVAlt (alts : list text)
| HVType (t : text) | HVAuxInt (p : nat) | HVAux (p : nat)
| HVString (s : text).

(** Labels in scope (zparser.go:2032-2033). *)
Definition henv := list (text * hval).
(** stack["x"], parse/internal/parser/zparser.go:1393-1645: the nil interface if there is no such label. *)
Fixpoint henv_get (e : henv) (l : text) : hval :=
  match e with
  | [] => HVNil
  | (k, v) :: e' => if text_eqb k l then v else henv_get e' l
  end.

(** Failed type assertions and indexing (parse/internal/parser/zparser.go:1384-1562). *)
Definition hassert (want : string) : M hval :=
  panics (str "interface conversion: unexpected dynamic type, not " ++ str want).
(** "x.([]interface{})[i]", parse/internal/parser/zparser.go:1387,1435,1494,1535,1539. *)
Definition helem (v : hval) (i : nat) (k : hval -> M hval) : M hval :=
  match v with
  | HVSlice l => match nth_error l i with Some x => k x | None => panics (str "runtime error: index out of range") end
  | _ => hassert "[]interface {}"
  end.

Section Actions.
  (** go/parser.ParseExpr: external. *)
  Variable gp : text -> res gexpr.
  (** How much larger than needed append makes a new array. *)
  Variable spare : nat -> nat -> nat.

  (** onFile1, zparser.go:1384-1391. *)
  Fixpoint hon_file (is : list hval) (rules : slice) : M hval :=
    match is with
    | [] => do a <- alloc (CFile rules); ret (HVFile a)
    | i :: is' =>
        helem i 1 (fun v => match v with
                            | HVRule p => do rules <- append spare rules [WRule (Some p)]; hon_file is' rules
                            | _ => hassert "*ast.Rule"
                            end)
    end.

  (** onRule1, zparser.go:1428-1443. *)
  Definition hon_rule (m cond block r : hval) : M hval :=
    match m with
    | HVValue vm =>
        match r with
        | HVValue vr =>
            let with_block (c : ptr) : M hval :=
              match block with
              | HVNil => do a <- alloc (CRule {| h_match := vm; h_cond := c; h_block := []; h_result := vr |}); ret (HVRule a)
              | HVString b => do a <- alloc (CRule {| h_match := vm; h_cond := c; h_block := b; h_result := vr |}); ret (HVRule a)
              | _ => hassert "string"
              end in
            match cond with
            | HVNil => with_block None
            | _ => helem cond 3 (fun c => match c with
                                          | HVValue (WExpr p) => with_block p
                                          | _ => hassert "*ast.Expr"
                                          end)
            end
        | _ => hassert "ast.Value"
        end
    | _ => hassert "ast.Value"
    end.

  (** onSExpr29, zparser.go:1491-1498. *)
  Fixpoint hon_alt (is : list hval) (acc : list text) : M hval :=
    match is with
    | [] => ret (HVAlt acc)
    | i :: is' =>
        helem i 1 (fun v => match v with
                            | HVOpcode c => hon_alt is' (acc ++ [c])
                            | _ => hassert "ast.Opcode"
                            end)
    end.

  (** onSExpr22, zparser.go:1506-1521. *)
  Fixpoint hon_op (is : list hval) (acc : list oppart) : M hval :=
    match is with
    | [] =>
        match acc with
        | [PCode c] => ret (HVOpcode c)
        | _ => do a <- alloc (CParts acc); ret (HVParts a)
        end
    | HVOpcode c :: is' => hon_op is' (acc ++ [PCode c])
    | HVAlt a :: is' => hon_op is' (acc ++ [PAlt a])
    | _ :: _ => hassert "ast.OpPart"
    end.

  (** The operand loop of onSExpr1, zparser.go:1538-1551. *)
  Fixpoint hon_operands (is : list hval) (s : hsexpr) (k : hsexpr -> M hval) : M hval :=
    match is with
    | [] => k s
    | i :: is' =>
        helem i 1 (fun v =>
          match v with
          | HVType t =>
              hon_operands is' {| h_binding := h_binding s; h_op := h_op s; h_type := t; h_auxint := h_auxint s; h_aux := h_aux s;
                                  h_args := h_args s; h_ellipsis := h_ellipsis s; h_trailing := h_trailing s |} k
          | HVAuxInt p =>
              hon_operands is' {| h_binding := h_binding s; h_op := h_op s; h_type := h_type s; h_auxint := Some p; h_aux := h_aux s;
                                  h_args := h_args s; h_ellipsis := h_ellipsis s; h_trailing := h_trailing s |} k
          | HVAux p =>
              hon_operands is' {| h_binding := h_binding s; h_op := h_op s; h_type := h_type s; h_auxint := h_auxint s; h_aux := Some p;
                                  h_args := h_args s; h_ellipsis := h_ellipsis s; h_trailing := h_trailing s |} k
          | HVValue a =>
              do args <- append spare (h_args s) [a];
              hon_operands is' {| h_binding := h_binding s; h_op := h_op s; h_type := h_type s; h_auxint := h_auxint s; h_aux := h_aux s;
                                  h_args := args; h_ellipsis := h_ellipsis s; h_trailing := h_trailing s |} k
          | _ => fails (str "unknown operand")
          end)
    end.

  (** onSExpr1, zparser.go:1529-1562. *)
  Definition hon_sexpr (binding op operands ellipsis trailing : hval) : M hval :=
    let go (o : hop) : M hval :=
      let rest (b : text) : M hval :=
        match operands with
        | HVSlice is =>
            hon_operands is {| h_binding := b; h_op := o; h_type := []; h_auxint := None; h_aux := None; h_args := nil_slice;
                               h_ellipsis := false; h_trailing := false |}
              (fun s => do a <- alloc (CSExpr {| h_binding := h_binding s; h_op := h_op s; h_type := h_type s; h_auxint := h_auxint s;
                                 h_aux := h_aux s; h_args := h_args s;
                                 h_ellipsis := match ellipsis with HVNil => false | _ => true end;
                                 h_trailing := match trailing with HVNil => false | _ => true end |});
                        ret (HVValue (WSExpr (Some a))))
        | _ => hassert "[]interface {}"
        end in
      match binding with
      | HVNil => rest []
      | _ => helem binding 0 (fun v => match v with
                                       | HVValue (WVar x) => rest x
                                       | _ => hassert "ast.Variable"
                                       end)
      end in
    match op with
    | HVOpcode c => go (HOpcode c)
    | HVParts a => go (HParts a)
    | _ => hassert "ast.Op"
    end.

  (** A new ast.Expr, valueauxint or valueaux (parse/internal/parser/zparser.go:1409,1588,1604,1638). *)
  Definition hwith_goexpr (x : text) (k : nat -> hval) : M hval :=
    match goexpr_parse gp x with
    | Ok e => do a <- alloc (CExpr e); ret (k a)
    | Err m => fails m
    | Panic m => panics m
    end.

  (** The action functions, zparser.go:1384-1645. *)
  Definition hrun_action (a : action) (t : text) (en : henv) : M hval :=
    let get l := henv_get en (str l) in
    match a with
    | onFile1 =>
        match get "rs"%string with HVSlice is => hon_file is nil_slice | _ => hassert "[]interface {}" end
    | onRule25 => hwith_goexpr (trim_space (newlines_to_spaces t)) (fun p => HVValue (WExpr (Some p)))
    | onRule50 => ret (HVString (tl t))
    | onRule1 => hon_rule (get "m"%string) (get "cond"%string) (get "block"%string) (get "r"%string)
    | onSExpr6 => ret (HVValue (WVar t))
    | onSExpr26 | onSExpr33 | onSExpr40 => ret (HVOpcode t)
    | onSExpr29 =>
        match get "first"%string with
        | HVOpcode c => match get "rest"%string with HVSlice is => hon_alt is [c]
                                              | _ => hassert "[]interface {}" end
        | _ => hassert "ast.Opcode"
        end
    | onSExpr22 =>
        match get "parts"%string with HVSlice is => hon_op is [] | _ => hassert "[]interface {}" end
    | onSExpr1 =>
        hon_sexpr (get "binding"%string) (get "op"%string) (get "operands"%string)
                  (get "ellipsis"%string) (get "trailing"%string)
    | onOperand2 => ret (HVType (inner t))
    | onOperand8 => hwith_goexpr (inner t) HVAuxInt
    | onOperand14 => hwith_goexpr (inner t) HVAux
    | onExpr3 => ret (HVValue (WVar t))
    | onExpr8 => ret (HVValue (WVar Placeholder))
    | onCall1 => hwith_goexpr t (fun p => HVValue (WExpr (Some p)))
    end.
End Actions.

(** ** The engine, zparser.go:2283-2596, as in Peg.v *)
Inductive hpres :=
| HOutOfFuel
| HPPanic (msg : text) (rule : text) (s : pstate)
| HPRes (v : hval) (ok : bool) (e : henv) (s : pstate).

(** A call of an action: its error and its panic are caught (zparser.go:2326-2347, 2208-2224). *)
Fixpoint catch {A} (m : M A) : M (res A) :=
  match m with
  | Done r => Done (Ok r)
  | Load p k => Load p (fun o => catch (k o))
  | New c k => New c (fun a => catch (k a))
  | Store p c k => Store p c (catch k)
  end.
(** What the matchers return: nil or a []byte of the source (parse/internal/parser/zparser.go:2469-2485). *)
Definition matched (v : val) : hval := match v with VBytes b => HVBytes b | _ => HVNil end.

Section Engine.
  Context {A : Type}.
  Variable run_action : A -> text -> henv -> M hval.
  Variable grammar : text -> option (pexpr A).

  (** The loop of parseSeqExpr, parse/internal/parser/zparser.go:2548-2561. *)
  Definition hseq_loop (parse : pexpr A -> henv -> pstate -> M hpres) (start : savepoint)
    : list (pexpr A) -> list hval -> henv -> pstate -> M hpres :=
    fix loop (es : list (pexpr A)) (vals : list hval) (en : henv) (s : pstate) : M hpres :=
      match es with
      | [] => ret (HPRes (HVSlice vals) true en s)
      | e :: es' =>
          do r <- parse e en s;
          match r with
          | HPRes v true en' s' => loop es' (vals ++ [v]) en' s'
          | HPRes _ false en' s' => ret (HPRes HVNil false en' (restore start s'))
          | r => ret r
          end
      end.
  (** The loop of parseChoiceExpr, parse/internal/parser/zparser.go:2443-2456. *)
  Definition hchoice_loop (parse : pexpr A -> henv -> pstate -> M hpres)
    : list (pexpr A) -> henv -> pstate -> M hpres :=
    fix loop (es : list (pexpr A)) (en : henv) (s : pstate) : M hpres :=
      match es with
      | [] => ret (HPRes HVNil false en s)
      | e :: es' =>
          do r <- parse e [] s;
          match r with
          | HPRes v true _ s' => ret (HPRes v true en s')
          | HPRes _ false _ s' => loop es' en s'
          | r => ret r
          end
      end.

  (** parser.parseExpr and the functions it calls, parse/internal/parser/zparser.go:2283-2596. *)
  Fixpoint hparse_expr (fuel : nat) (rule : text) (e : pexpr A) (en : henv) (s : pstate) {struct fuel} : M hpres :=
    match fuel with
    | O => ret HOutOfFuel
    | S n =>
        match e with
        | PAction a e' =>
            let start := pt s in
            do r <- hparse_expr n rule e' en s;
            match r with
            | HPRes v true en' s' =>
                do o <- catch (run_action a (sliceFrom start s') en');
                match o with
                | Ok v' => ret (HPRes v' true en' s')
                | Err msg => ret (HPRes HVNil true en' (addErrAt msg (pos start) (Some rule) [] s'))
                | Panic msg => ret (HPPanic msg rule s')
                end
            | r => ret r
            end
        | PChoice es => hchoice_loop (hparse_expr n rule) es en s
        | PLabel l e' =>
            do r <- hparse_expr n rule e' [] s;
            match r with
            | HPRes v true _ s' => ret (HPRes v true ((l, v) :: en) s')
            | HPRes v false _ s' => ret (HPRes v false en s')
            | r => ret r
            end
        | PSeq es => hseq_loop (hparse_expr n rule) (pt s) es [] en s
        | PNot e' =>
            do r <- hparse_expr n rule e' [] (set_invert (negb (fail_invert s)) s);
            match r with
            | HPRes _ ok _ s' =>
                ret (HPRes HVNil (negb ok) en (restore (pt s) (set_invert (negb (fail_invert s')) s')))
            | r => ret r
            end
        | POpt e' =>
            do r <- hparse_expr n rule e' [] s;
            match r with
            | HPRes v _ _ s' => ret (HPRes v true en s')
            | r => ret r
            end
        | PStar e' =>
            do r <- hstar_loop n rule e' [] s;
            match r with
            | HPRes v ok _ s' => ret (HPRes v ok en s')
            | r => ret r
            end
        | PPlus e' =>
            do r <- hstar_loop n rule e' [] s;
            match r with
            | HPRes (HVSlice []) _ _ s' => ret (HPRes HVNil false en s')
            | HPRes v ok _ s' => ret (HPRes v ok en s')
            | r => ret r
            end
        | PRef name =>
            match grammar name with
            | None => ret (HPRes HVNil false en
                        (addErrAt (str "undefined rule: " ++ name) (pos (pt s)) (Some rule) [] s))
            | Some body =>
                do r <- hparse_expr n name body [] s;
                match r with
                | HPRes v ok _ s' => ret (HPRes v ok en s')
                | r => ret r
                end
            end
        | PLit v want => let '(x, ok, s') := parse_lit rule v want s in ret (HPRes (matched x) ok en s')
        | PClass v cs rs inv => let '(x, ok, s') := parse_class rule v cs rs inv s in ret (HPRes (matched x) ok en s')
        | PAny => let '(x, ok, s') := parse_any rule s in ret (HPRes (matched x) ok en s')
        end
    end
  (** The loop of parseZeroOrMoreExpr and parseOneOrMoreExpr, parse/internal/parser/zparser.go:2508-2524, 2576-2588. *)
  with hstar_loop (fuel : nat) (rule : text) (e : pexpr A) (vals : list hval) (s : pstate) {struct fuel} : M hpres :=
    match fuel with
    | O => ret HOutOfFuel
    | S n =>
        do r <- hparse_expr n rule e [] s;
        match r with
        | HPRes v true _ s' => hstar_loop n rule e (vals ++ [v]) s'
        | HPRes _ false _ s' => ret (HPRes (HVSlice vals) true [] s')
        | r => ret r
        end
    end.
End Engine.

Section Api.
  Variable gp : text -> res gexpr.
  Variable spare : nat -> nat -> nat.

  (** cast, parse/parse.go:30-35. *)
  Definition h_cast (v : hval) (err : option text) : M nat :=
    match err with
    | Some e => fails e
    | None => match v with
              | HVFile p => ret p
              | _ => panics (str "interface conversion: interface {} is not *ast.File")
              end
    end.
  (** parser.Parse (zparser.go:1764-1766, 2200-2261) and cast: a pointer to the new ast.File. *)
  Definition h_Parse (filename data : text) : M nat :=
    do r <- hparse_expr (hrun_action gp spare) the_grammar (parse_bound data) (str "File") g_File [] (read None (init_state data));
    match r with
    | HOutOfFuel => panics (str "model: out of fuel")
    | HPPanic msg rule s => h_cast HVNil (errlist_err filename (errs (addErrAt msg (pos (pt s)) (Some rule) [] s)))
    | HPRes v true _ s => h_cast v (errlist_err filename (errs s))
    | HPRes _ false _ s =>
        match errs s with
        | [] => h_cast HVNil (errlist_err filename (errs (addErrAt (no_match (fail_expected s)) (fail_pos s) None
                                           (expected_list (fail_expected s)) s)))
        | es => h_cast HVNil (errlist_err filename es)
        end
    end.
End Api.
