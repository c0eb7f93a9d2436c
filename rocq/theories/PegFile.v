(** The grammar file parse/rules.peg, from which pigeon generates
    parse/internal/parser/zparser.go (the go:generate line at parse/parse.go:12).

    Grammar.v models the generated table, in which pigeon's -optimize-grammar has
    inlined most rules and merged adjacent character matchers.  Here each rule of the
    file is written as it stands, one entry per rule, every mention of another rule
    being a [PRef]. *)
From Verif Require Import Text GoAst Ast Utf8 GoExpr Peg Grammar.
From Coq Require Import NArith Arith Bool.
Open Scope N_scope.

(** One code per action block, named after the rule it ends (parse/rules.peg). *)
Inductive peg_action :=
| doFile | doRule | doSExpr | doOp | doOpPart | doOpAlt | doType | doAuxInt | doAux
| doCall | doVariable | doPlaceholder | doCondition | doBlock.

Notation gexp := (pexpr peg_action).

(** Literals and classes; the strings used in error messages are not part of the
    grammar file and are left empty (parse/rules.peg). *)
Definition q (s : string) : gexp := PLit (runes s) [].
(** A class of rules.peg, parse/rules.peg. *)
Definition cls (chars : list N) (ranges : list (N * N)) : gexp := PClass [] chars ranges false.
(** A class with "^" of parse/rules.peg. *)
Definition cls_not (chars : list N) : gexp := PClass [] chars [] true.
(** A rule name used in an expression of parse/rules.peg. *)
Definition ref (s : string) : gexp := PRef (str s).
(** "label:expr" in parse/rules.peg. *)
Definition label (s : string) (e : gexp) : gexp := PLabel (str s) e.

(** rules.peg:19.  File <- rs:( _ Rule _ )* EOF *)
Definition peg_File : gexp :=
  PAction doFile (PSeq [label "rs" (PStar (PSeq [ref "_"; ref "Rule"; ref "_"])); ref "EOF"]).

(** rules.peg:30.  Rule <- m:Value cond:( __ "&&" __ Condition)? _ "=>" _ block:Block? _ r:Value *)
Definition peg_Rule : gexp :=
  PAction doRule (PSeq [
    label "m" (ref "Value");
    label "cond" (POpt (PSeq [ref "__"; q "&&"; ref "__"; ref "Condition"]));
    ref "_"; q "=>"; ref "_";
    label "block" (POpt (ref "Block"));
    ref "_";
    label "r" (ref "Value") ]).

(** rules.peg:47.  Value <- SExpr / Expr *)
Definition peg_Value : gexp := PChoice [ref "SExpr"; ref "Expr"].

(** rules.peg:49.  SExpr <- binding:( Variable ':' )? '(' _ op:Op operands:( __ Operand )*
    ellipsis:( __ "...")? trailing:( __ "___" )? _ ')' *)
Definition peg_SExpr : gexp :=
  PAction doSExpr (PSeq [
    label "binding" (POpt (PSeq [ref "Variable"; q ":"]));
    q "("; ref "_";
    label "op" (ref "Op");
    label "operands" (PStar (PSeq [ref "__"; ref "Operand"]));
    label "ellipsis" (POpt (PSeq [ref "__"; q "..."]));
    label "trailing" (POpt (PSeq [ref "__"; q "___"]));
    ref "_"; q ")" ]).

(** rules.peg:86.  Op <- parts:( OpPart / OpAlt )+ *)
Definition peg_Op : gexp :=
  PAction doOp (label "parts" (PPlus (PChoice [ref "OpPart"; ref "OpAlt"]))).

(** The class [_a-zA-Z0-9] of rules.peg:103 and 165. *)
Definition cls_word : gexp := cls [95] [(97, 122); (65, 90); (48, 57)].

(** rules.peg:103.  OpPart <- [_a-zA-Z0-9]+ *)
Definition peg_OpPart : gexp := PAction doOpPart (PPlus cls_word).

(** rules.peg:107.  OpAlt <- '(' first:OpPart rest:( '|' OpPart )+ ')' *)
Definition peg_OpAlt : gexp :=
  PAction doOpAlt (PSeq [
    q "("; label "first" (ref "OpPart");
    label "rest" (PPlus (PSeq [q "|"; ref "OpPart"])); q ")" ]).

(** rules.peg:118.  Operand <- Type / AuxInt / Aux / Value *)
Definition peg_Operand : gexp := PChoice [ref "Type"; ref "AuxInt"; ref "Aux"; ref "Value"].

(** rules.peg:120.  Type <- '<' [^>]+ '>' *)
Definition peg_Type : gexp := PAction doType (PSeq [q "<"; PPlus (cls_not [62]); q ">"]).
(** rules.peg:125.  AuxInt <- '[' [^\]]+ ']' *)
Definition peg_AuxInt : gexp := PAction doAuxInt (PSeq [q "["; PPlus (cls_not [93]); q "]"]).
(** rules.peg:135.  Aux <- '{' [^}]+ '}' *)
Definition peg_Aux : gexp := PAction doAux (PSeq [q "{"; PPlus (cls_not [125]); q "}"]).

(** rules.peg:147.  Expr <- Call / Variable / Placeholder *)
Definition peg_Expr : gexp := PChoice [ref "Call"; ref "Variable"; ref "Placeholder"].

(** rules.peg:149.  Call <- Ident '(' _ Expr ( _ ',' _ Expr _ )* _ ')' *)
Definition peg_Call : gexp :=
  PAction doCall (PSeq [
    ref "Ident"; q "("; ref "_"; ref "Expr";
    PStar (PSeq [ref "_"; q ","; ref "_"; ref "Expr"; ref "_"]);
    ref "_"; q ")" ]).

(** rules.peg:157.  Variable <- Ident *)
Definition peg_Variable : gexp := PAction doVariable (ref "Ident").
(** rules.peg:161.  Placeholder <- "_" !"_" *)
Definition peg_Placeholder : gexp := PAction doPlaceholder (PSeq [q "_"; PNot (q "_")]).
(** rules.peg:165.  Ident <- [a-z] [_a-zA-Z0-9]* *)
Definition peg_Ident : gexp := PSeq [cls [] [(97, 122)]; PStar cls_word].

(** rules.peg:169.  Condition <- ( . !"=>" )+ *)
Definition peg_Condition : gexp := PAction doCondition (PPlus (PSeq [PAny; PNot (q "=>")])).
(** rules.peg:184.  Block <- '@' ( !Whitespace .)+ *)
Definition peg_Block : gexp :=
  PAction doBlock (PSeq [q "@"; PPlus (PSeq [PNot (ref "Whitespace"); PAny])]).

(** rules.peg:190.  __ <- Skip+ *)
Definition peg_ws1 : gexp := PPlus (ref "Skip").
(** rules.peg:191.  _ <- Skip* *)
Definition peg_ws0 : gexp := PStar (ref "Skip").
(** rules.peg:193.  Skip <- (Comment / Whitespace / EOL) *)
Definition peg_Skip : gexp := PChoice [ref "Comment"; ref "Whitespace"; ref "EOL"].
(** rules.peg:197.  Comment <- "//" [^\n]* EOL *)
Definition peg_Comment : gexp := PSeq [q "//"; PStar (cls_not [10]); ref "EOL"].
(** rules.peg:201.  Whitespace <- [ \t\r] *)
Definition peg_Whitespace : gexp := cls [32; 9; 13] [].
(** rules.peg:202.  EOL <- '\n' *)
Definition peg_EOL : gexp := PLit [10] [].
(** rules.peg:203.  EOF <- !. *)
Definition peg_EOF : gexp := PNot PAny.

(** The whole file, in its order (parse/rules.peg). *)
Definition peg_rules : list (text * gexp) :=
  [ (str "File", peg_File); (str "Rule", peg_Rule); (str "Value", peg_Value); (str "SExpr", peg_SExpr);
    (str "Op", peg_Op); (str "OpPart", peg_OpPart); (str "OpAlt", peg_OpAlt);
    (str "Operand", peg_Operand); (str "Type", peg_Type); (str "AuxInt", peg_AuxInt); (str "Aux", peg_Aux);
    (str "Expr", peg_Expr); (str "Call", peg_Call); (str "Variable", peg_Variable);
    (str "Placeholder", peg_Placeholder); (str "Ident", peg_Ident);
    (str "Condition", peg_Condition); (str "Block", peg_Block);
    (str "__", peg_ws1); (str "_", peg_ws0); (str "Skip", peg_Skip); (str "Comment", peg_Comment);
    (str "Whitespace", peg_Whitespace); (str "EOL", peg_EOL); (str "EOF", peg_EOF) ].
(** The rules of parse/rules.peg by name. *)
Definition peg_grammar (name : text) : option gexp :=
  option_map snd (find (fun p => text_eqb (fst p) name) peg_rules).

Section Actions.
  (** go/parser.ParseExpr: external. *)
  Variable gp : text -> res gexpr.

  (** The action blocks.  Their Go text is the same in rules.peg and in zparser.go, so
      the loops of Grammar.v ([on_file], [on_rule], ...) serve for both. *)
  Definition peg_run (a : peg_action) (t : text) (en : env) : ares :=
    let get l := env_get en (str l) in
    match a with
    | doFile =>                                       (* rules.peg:20-25 *)
        match get "rs"%string with VSlice is => on_file is [] | _ => assert_panic "[]interface {}" end
    | doRule =>                                       (* rules.peg:31-44 *)
        on_rule (get "m"%string) (get "cond"%string) (get "block"%string) (get "r"%string)
    | doSExpr =>                                      (* rules.peg:50-81 *)
        on_sexpr_action (get "binding"%string) (get "op"%string) (get "operands"%string)
                        (get "ellipsis"%string) (get "trailing"%string)
    | doOp =>                                         (* rules.peg:87-100 *)
        match get "parts"%string with VSlice is => on_op is [] | _ => assert_panic "[]interface {}" end
    | doOpPart => AOk (VOpcode t)                     (* rules.peg:104 *)
    | doOpAlt =>                                      (* rules.peg:108-113 *)
        match get "first"%string with
        | VOpcode c => match get "rest"%string with VSlice is => on_alt is [c]
                                             | _ => assert_panic "[]interface {}" end
        | _ => assert_panic "ast.Opcode"
        end
    | doType => AOk (VType (inner t))                 (* rules.peg:121-122 *)
    | doAuxInt => with_goexpr gp (inner t) VAuxInt    (* rules.peg:126-132 *)
    | doAux => with_goexpr gp (inner t) VAux          (* rules.peg:136-142 *)
    | doCall => with_goexpr gp t (fun e => VValue (EVal e))   (* rules.peg:150-154 *)
    | doVariable => AOk (VValue (Var t))              (* rules.peg:158 *)
    | doPlaceholder => AOk (VValue (Var Placeholder)) (* rules.peg:162 *)
    | doCondition =>                                  (* rules.peg:170-179 *)
        with_goexpr gp (trim_space (newlines_to_spaces t)) (fun e => VValue (EVal e))
    | doBlock => AOk (VString (tl t))                 (* rules.peg:185 *)
    end.
End Actions.
