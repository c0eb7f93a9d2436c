(** The grammar table and the actions of parse/internal/parser/zparser.go
    (generated by pigeon from parse/rules.peg). *)
From Verif Require Import Text GoAst Ast Utf8 GoExpr Peg.
From Coq Require Import NArith Arith Bool.
Open Scope N_scope.

(** One code per action function, named after it (parse/internal/parser/zparser.go:1384-1639). *)
Inductive action :=
| onFile1 | onRule25 | onRule50 | onRule1
| onSExpr6 | onSExpr26 | onSExpr33 | onSExpr40 | onSExpr29 | onSExpr22 | onSExpr1
| onOperand2 | onOperand8 | onOperand14
| onExpr3 | onExpr8 | onCall1.

Notation pexp := (pexpr action).

(** The runes of a literal ([]rune / val of litMatcher, parse/internal/parser/zparser.go:1873-1878), all ASCII here. *)
Definition runes (s : string) : list N := map byte_val (str s).
(** A litMatcher of the grammar, parse/internal/parser/zparser.go:1873-1878. *)
Definition lit (s want : string) : pexp := PLit (runes s) (str want).

(** "\n", zparser.go:71-76. *)
Definition g_eol : pexp := PLit [10] (str """\n""").
(** Comment, zparser.go:52-78 (rules.peg:197). *)
Definition g_comment : pexp :=
  PSeq [lit "//" """//"""; PStar (PClass (str "[^\n]") [10] [] true); g_eol].
(** Skip, zparser.go:49-87 (rules.peg:193): comment or one of space, \t, \r, \n. *)
Definition g_skip : pexp :=
  PChoice [g_comment; PClass (str "[ \t\r\n]") [32; 9; 13; 10] [] false].
(** rules.peg:191 "_" and rules.peg:190 "__". *)
Definition g_ws0 : pexp := PStar g_skip.
(** white space, at least once: rules.peg. *)
Definition g_ws1 : pexp := PPlus g_skip.

(** [_a-zA-Z0-9], e.g. zparser.go:528-536. *)
Definition g_word : pexp :=
  PClass (str "[_a-zA-Z0-9]") [95] [(97, 122); (65, 90); (48, 57)] false.
(** [a-z] followed by [_a-zA-Z0-9]*, e.g. zparser.go:516-539 (rules.peg:165). *)
Definition g_lower : pexp := PClass (str "[a-z]") [] [(97, 122)] false.
(** The identifiers of rules.peg: a lower-case letter, then word characters. *)
Definition g_ident : list pexp := [g_lower; PStar g_word].

(** Rule File, zparser.go:30-148 (rules.peg:19). *)
Definition g_File : pexp :=
  PAction onFile1 (PSeq [
    PLabel (str "rs") (PStar (PSeq [g_ws0; PRef (str "Rule"); g_ws0]));
    PNot PAny ]).

(** Condition, zparser.go:264-286 (rules.peg:169). *)
Definition g_Condition : pexp :=
  PAction onRule25 (PPlus (PSeq [PAny; PNot (lit "=>" """=>""")])).

(** Block, zparser.go:386-421 (rules.peg:184). *)
Definition g_Block : pexp :=
  PAction onRule50 (PSeq [
    lit "@" """@""";
    PPlus (PSeq [PNot (PClass (str "[ \t\r]") [32; 9; 13] [] false); PAny]) ]).

(** Rule Rule, zparser.go:149-478 (rules.peg:30). *)
Definition g_Rule : pexp :=
  PAction onRule1 (PSeq [
    PLabel (str "m") (PRef (str "Value"));
    PLabel (str "cond") (POpt (PSeq [g_ws1; lit "&&" """&&"""; g_ws1; g_Condition]));
    g_ws0;
    lit "=>" """=>""";
    g_ws0;
    PLabel (str "block") (POpt g_Block);
    g_ws0;
    PLabel (str "r") (PRef (str "Value")) ]).

(** Rule Value, zparser.go:479-495 (rules.peg:47). *)
Definition g_Value : pexp := PChoice [PRef (str "SExpr"); PRef (str "Expr")].

(** OpPart and OpAlt, zparser.go:612-698 (rules.peg:105-116). *)
Definition g_OpPart (a : action) : pexp := PAction a (PPlus g_word).
(** An alternative part of an opcode in rule SExpr of rules.peg. *)
Definition g_OpAlt : pexp :=
  PAction onSExpr29 (PSeq [
    lit "(" """(""";
    PLabel (str "first") (g_OpPart onSExpr33);
    PLabel (str "rest") (PPlus (PSeq [lit "|" """|"""; g_OpPart onSExpr40]));
    lit ")" """)""" ]).

(** Op, zparser.go:601-705 (rules.peg:88). *)
Definition g_Op : pexp :=
  PAction onSExpr22 (PLabel (str "parts") (PPlus (PChoice [g_OpPart onSExpr26; g_OpAlt]))).

(** Rule SExpr, zparser.go:496-935 (rules.peg:49). *)
Definition g_SExpr : pexp :=
  PAction onSExpr1 (PSeq [
    PLabel (str "binding") (POpt (PSeq [PAction onSExpr6 (PSeq g_ident); lit ":" """:"""]));
    lit "(" """(""";
    g_ws0;
    PLabel (str "op") g_Op;
    PLabel (str "operands") (PStar (PSeq [g_ws1; PRef (str "Operand")]));
    PLabel (str "ellipsis") (POpt (PSeq [g_ws1; lit "..." """..."""]));
    PLabel (str "trailing") (POpt (PSeq [g_ws1; lit "___" """___"""]));
    g_ws0;
    lit ")" """)""" ]).

(** Rule Operand, zparser.go:936-1041 (rules.peg:118-145). *)
Definition g_Operand : pexp :=
  PChoice [
    PAction onOperand2 (PSeq [lit "<" """<""";
      PPlus (PClass (str "[^>]") [62] [] true); lit ">" """>"""]);
    PAction onOperand8 (PSeq [lit "[" """[""";
      PPlus (PClass (str "[^]]") [93] [] true); lit "]" """]"""]);
    PAction onOperand14 (PSeq [lit "{" """{""";
      PPlus (PClass (str "[^}]") [125] [] true); lit "}" """}"""]);
    PRef (str "Value") ].

(** Rule Expr, zparser.go:1042-1105 (rules.peg:147,157,161). *)
Definition g_Expr : pexp :=
  PChoice [
    PRef (str "Call");
    PAction onExpr3 (PSeq g_ident);
    PAction onExpr8 (PSeq [lit "_" """_"""; PNot (lit "_" """_""")]) ].

(** Rule Call, zparser.go:1106-1380 (rules.peg:149). *)
Definition g_Call : pexp :=
  PAction onCall1 (PSeq (g_ident ++ [
    lit "(" """(""";
    g_ws0;
    PRef (str "Expr");
    PStar (PSeq [g_ws0; lit "," """,""";  g_ws0; PRef (str "Expr"); g_ws0]);
    g_ws0;
    lit ")" """)""" ])).

(** The grammar variable g, zparser.go:28-1382. *)
Definition grammar_rules : list (text * pexp) :=
  [ (str "File", g_File); (str "Rule", g_Rule); (str "Value", g_Value); (str "SExpr", g_SExpr);
    (str "Operand", g_Operand); (str "Expr", g_Expr); (str "Call", g_Call) ].
(** p.rules, parse/internal/parser/zparser.go:2193-2198: a rule by its name. *)
Definition the_grammar (name : text) : option pexp :=
  option_map snd (find (fun p => text_eqb (fst p) name) grammar_rules).

(** Panic messages of failed type assertions (parse/internal/parser/zparser.go:1384-1562). *)
Definition assert_panic (want : string) : ares :=
  APanic (str "interface conversion: unexpected dynamic type, not " ++ str want).
(** Indexing a slice beyond its length. *)
Definition index_panic : ares := APanic (str "runtime error: index out of range").

(** x.([]interface{})[i] (parse/internal/parser/zparser.go:1387,1435,1494,1535,1539). *)
Definition elem (v : val) (i : nat) (k : val -> ares) : ares :=
  match v with
  | VSlice l => match nth_error l i with Some x => k x | None => index_panic end
  | _ => assert_panic "[]interface {}"
  end.

(** onFile1, zparser.go:1384-1391. *)
Fixpoint on_file (is : list val) (acc : list rule) : ares :=
  match is with
  | [] => AOk (VFile {| f_rules := acc |})
  | i :: is' =>
      elem i 1 (fun v => match v with
                         | VRule r => on_file is' (acc ++ [r])
                         | _ => assert_panic "*ast.Rule"
                         end)
  end.

(** onRule1, zparser.go:1428-1443. *)
Definition on_rule (m cond block r : val) : ares :=
  match m with
  | VValue vm =>
      match r with
      | VValue vr =>
          let with_block (c : option gexpr) : ares :=
            match block with
            | VNil => AOk (VRule (mkRule vm c [] vr))
            | VString b => AOk (VRule (mkRule vm c b vr))
            | _ => assert_panic "string"
            end in
          match cond with
          | VNil => with_block None
          | _ => elem cond 3 (fun c => match c with
                                       | VValue (EVal e) => with_block (Some e)
                                       | _ => assert_panic "*ast.Expr"
                                       end)
          end
      | _ => assert_panic "ast.Value"
      end
  | _ => assert_panic "ast.Value"
  end.

(** onSExpr29, zparser.go:1491-1498. *)
Fixpoint on_alt (is : list val) (acc : list text) : ares :=
  match is with
  | [] => AOk (VAlt acc)
  | i :: is' =>
      elem i 1 (fun v => match v with
                         | VOpcode c => on_alt is' (acc ++ [c])
                         | _ => assert_panic "ast.Opcode"
                         end)
  end.

(** onSExpr22, zparser.go:1506-1521. *)
Fixpoint on_op (is : list val) (acc : list oppart) : ares :=
  match is with
  | [] =>
      match acc with
      | [PCode c] => AOk (VOpcode c)
      | _ => AOk (VParts acc)
      end
  | VOpcode c :: is' => on_op is' (acc ++ [PCode c])
  | VAlt a :: is' => on_op is' (acc ++ [PAlt a])
  | _ :: _ => assert_panic "ast.OpPart"
  end.

(** The operand loop of onSExpr1, zparser.go:1538-1551. *)
Fixpoint on_operands (is : list val) (s : sexpr) (k : sexpr -> ares) : ares :=
  match is with
  | [] => k s
  | i :: is' =>
      elem i 1 (fun v =>
        match v with
        | VType t =>
            on_operands is' (mkSExpr (s_binding s) (s_op s) t (s_auxint s) (s_aux s) (s_args s)
                                     (s_ellipsis s) (s_trailing s)) k
        | VAuxInt e =>
            on_operands is' (mkSExpr (s_binding s) (s_op s) (s_type s) (Some e) (s_aux s) (s_args s)
                                     (s_ellipsis s) (s_trailing s)) k
        | VAux e =>
            on_operands is' (mkSExpr (s_binding s) (s_op s) (s_type s) (s_auxint s) (Some e) (s_args s)
                                     (s_ellipsis s) (s_trailing s)) k
        | VValue a =>
            on_operands is' (mkSExpr (s_binding s) (s_op s) (s_type s) (s_auxint s) (s_aux s)
                                     (s_args s ++ [a]) (s_ellipsis s) (s_trailing s)) k
        | _ => AErr (str "unknown operand") VNil
        end)
  end.

(** onSExpr1, zparser.go:1529-1562. *)
Definition on_sexpr_action (binding op operands ellipsis trailing : val) : ares :=
  let go (o : Ast.op) : ares :=
    let rest (b : text) : ares :=
      match operands with
      | VSlice is =>
          on_operands is (mkSExpr b o [] None None [] false false)
            (fun s => AOk (VValue (SExp (mkSExpr (s_binding s) (s_op s) (s_type s) (s_auxint s) (s_aux s)
              (s_args s) (match ellipsis with VNil => false | _ => true end)
              (match trailing with VNil => false | _ => true end)))))
      | _ => assert_panic "[]interface {}"
      end in
    match binding with
    | VNil => rest []
    | _ => elem binding 0 (fun v => match v with
                                    | VValue (Var x) => rest x
                                    | _ => assert_panic "ast.Variable"
                                    end)
    end in
  match op with
  | VOpcode c => go (Opcode c)
  | VParts ps => go (OpcodeParts ps)
  | _ => assert_panic "ast.Op"
  end.

Section Actions.
  (** go/parser.ParseExpr: external. *)
  Variable gp : text -> res gexpr.

  (** c.text[1:n-1] (parse/internal/parser/zparser.go:1572,1583,1599). *)
  Definition inner (t : text) : text := removelast (tl t).

  (** "expr, err := goexpr.Parse(x); if err != nil", parse/internal/parser/zparser.go:1404-1407, 1584-1587, 1600-1603, 1634-1637. *)
  Definition with_goexpr (x : text) (k : gexpr -> val) : ares :=
    match goexpr_parse gp x with
    | Ok e => AOk (k e)
    | Err m => AErr m VNil
    | Panic m => APanic m
    end.

  (** The action functions, zparser.go:1384-1645. *)
  Definition run_action (a : action) (t : text) (en : env) : ares :=
    let get l := env_get en (str l) in
    match a with
    | onFile1 =>
        match get "rs"%string with VSlice is => on_file is [] | _ => assert_panic "[]interface {}" end
    | onRule25 =>                                   (* zparser.go:1399-1410 *)
        with_goexpr (trim_space (newlines_to_spaces t)) (fun e => VValue (EVal e))
    | onRule50 => AOk (VString (tl t))              (* zparser.go:1418-1420 *)
    | onRule1 => on_rule (get "m"%string) (get "cond"%string) (get "block"%string) (get "r"%string)
    | onSExpr6 => AOk (VValue (Var t))              (* zparser.go:1451-1453 *)
    | onSExpr26 | onSExpr33 | onSExpr40 => AOk (VOpcode t)  (* zparser.go:1461-1483 *)
    | onSExpr29 =>
        match get "first"%string with
        | VOpcode c => match get "rest"%string with VSlice is => on_alt is [c]
                                             | _ => assert_panic "[]interface {}" end
        | _ => assert_panic "ast.Opcode"
        end
    | onSExpr22 =>
        match get "parts"%string with VSlice is => on_op is [] | _ => assert_panic "[]interface {}" end
    | onSExpr1 =>
        on_sexpr_action (get "binding"%string) (get "op"%string) (get "operands"%string)
                        (get "ellipsis"%string) (get "trailing"%string)
    | onOperand2 => AOk (VType (inner t))           (* zparser.go:1570-1573 *)
    | onOperand8 => with_goexpr (inner t) VAuxInt   (* zparser.go:1581-1589 *)
    | onOperand14 => with_goexpr (inner t) VAux     (* zparser.go:1597-1605 *)
    | onExpr3 => AOk (VValue (Var t))               (* zparser.go:1613-1615 *)
    | onExpr8 => AOk (VValue (Var Placeholder))     (* zparser.go:1623-1625 *)
    | onCall1 => with_goexpr t (fun e => VValue (EVal e))  (* zparser.go:1633-1639 *)
    end.
End Actions.
