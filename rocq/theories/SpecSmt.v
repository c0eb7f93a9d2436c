(** Specification for package smt2, in three independent parts:
    1. the fragment of SMT-LIB 2.6 that matters: reading a script from its text,
       its well-formedness, and satisfiability;
    2. what the SSA operations mean in Go: fixed-width two's complement integers
       and booleans;
    3. typing and validity of rewrite rules.
    None of it mentions the generator. *)
From Verif Require Import Text GoAst Ast.
From Coq Require Import ZArith Bool.
Open Scope Z_scope.

(** * 1. SMT-LIB *)

(** Lexical structure (SMT-LIB 2.6, section 3.1): parentheses, words, white space
    (tab, LF, CR, space), and comments from ; to the next LF or CR.  Quoted
    symbols and string literals are not in the fragment: the characters that
    start them are not symbol characters and make [read_script] fail. *)
Inductive tok := LP | RP | Word (w : text).

Definition is_eol (c : ascii) : bool := if ascii_dec c nl then true else if ascii_dec c cr then true else false.
Definition is_blank (c : ascii) : bool :=
  is_eol c || (if ascii_dec c sp then true else if ascii_dec c tab then true else false).
Definition flush (word : text) (l : list tok) : list tok :=
  match word with [] => l | _ => Word (rev word) :: l end.

Fixpoint tokens_from (comment : bool) (word : text) (s : text) : list tok :=
  match s with
  | [] => flush word []
  | c :: s' =>
      if comment then tokens_from (negb (is_eol c)) [] s'
      else if is_blank c then flush word (tokens_from false [] s')
      else if ascii_dec c "("%char then flush word (LP :: tokens_from false [] s')
      else if ascii_dec c ")"%char then flush word (RP :: tokens_from false [] s')
      else if ascii_dec c ";"%char then flush word (tokens_from true [] s')
      else tokens_from false (c :: word) s'
  end.
Definition tokens (s : text) : list tok := tokens_from false [] s.

(** S-expressions. *)
Inductive sx := Atom (w : text) | Node (l : list sx).

Fixpoint sx_read (ts : list tok) (stack : list (list sx)) (cur : list sx) : option (list sx) :=
  match ts with
  | [] => match stack with [] => Some (rev cur) | _ => None end
  | LP :: ts' => sx_read ts' (cur :: stack) []
  | RP :: ts' => match stack with [] => None | top :: st => sx_read ts' st (Node (rev cur) :: top) end
  | Word w :: ts' => sx_read ts' stack (Atom w :: cur)
  end.

(** Simple symbols: letters, digits and ~!@$%^&*_-+=<>.?/ not starting with a
    digit (nor with @ or . which are kept for solvers), and not reserved. *)
Definition digit (c : ascii) : bool := in_range "0" "9" c.
Definition letter (c : ascii) : bool := in_range "a" "z" c || in_range "A" "Z" c.
Definition symbol_char (c : ascii) : bool :=
  digit c || letter c || existsb (fun d => if ascii_dec c d then true else false) (str "~!@$%^&*_-+=<>.?/").
Definition in_texts (x : text) (l : list string) : bool := existsb (fun s => text_eqb x (str s)) l.

Definition reserved : list string :=
  [ "_"; "!"; "as"; "let"; "exists"; "forall"; "match"; "par";
    "BINARY"; "DECIMAL"; "HEXADECIMAL"; "NUMERAL"; "STRING";
    "assert"; "check-sat"; "check-sat-assuming"; "declare-const"; "declare-datatype";
    "declare-datatypes"; "declare-fun"; "declare-sort"; "define-fun"; "define-fun-rec";
    "define-funs-rec"; "define-sort"; "echo"; "exit"; "get-assertions"; "get-assignment";
    "get-info"; "get-model"; "get-option"; "get-proof"; "get-unsat-assumptions";
    "get-unsat-core"; "get-value"; "pop"; "push"; "reset"; "reset-assertions";
    "set-info"; "set-logic"; "set-option" ]%string.
(** Function symbols of the Core theory and of QF_BV. *)
Definition theory_symbols : list string :=
  [ "true"; "false"; "not"; "=>"; "and"; "or"; "xor"; "="; "distinct"; "ite";
    "concat"; "extract"; "bvnot"; "bvneg"; "bvand"; "bvor"; "bvadd"; "bvmul"; "bvudiv";
    "bvurem"; "bvshl"; "bvlshr"; "bvult"; "bvnand"; "bvnor"; "bvxor"; "bvxnor"; "bvcomp";
    "bvsub"; "bvsdiv"; "bvsrem"; "bvsmod"; "bvashr"; "repeat"; "zero_extend"; "sign_extend";
    "rotate_left"; "rotate_right"; "bvule"; "bvugt"; "bvuge"; "bvslt"; "bvsle"; "bvsgt"; "bvsge" ]%string.

Definition simple_symbol (x : text) : bool :=
  match x with
  | [] => false
  | c :: _ => negb (digit c) && negb (text_eqb [c] (str "@")) && negb (text_eqb [c] (str ".")) && forallb symbol_char x
  end.
(** [lenient] readers let the reserved word _ through as a symbol. *)
Definition symbol_ok (lenient : bool) (x : text) : bool :=
  simple_symbol x && (negb (in_texts x reserved) || (lenient && text_eqb x (str "_"))).
(** A name that a script may declare. *)
Definition legal_name (lenient : bool) (x : text) : bool :=
  symbol_ok lenient x && negb (in_texts x theory_symbols).

(** Sorts, terms, commands. *)
Inductive sort := SBool | SBV (width : Z).
Inductive term := TConst (x : text) | TApp (f : text) (args : list term).
Inductive command :=
| SetInfo (keyword value : text) | SetLogic (logic : text)
| DeclareConst (x : text) (s : sort) | Assert (t : term) | CheckSat | Exit_.

Definition sort_eq_dec (a b : sort) : {a = b} + {a <> b}.
Proof. decide equality. apply Z.eq_dec. Defined.

Fixpoint numeral_from (acc : Z) (w : text) : option Z :=
  match w with
  | [] => Some acc
  | c :: w' => if digit c then numeral_from (10 * acc + (Z.of_N (byte_val c) - 48)) w' else None
  end.
(** A positive numeral without leading zeros. *)
Definition numeral (w : text) : option Z :=
  match w with
  | [] => None
  | c :: _ => if text_eqb [c] (str "0") then None else numeral_from 0 w
  end.

Definition read_sort (x : sx) : option sort :=
  match x with
  | Atom w => if text_eqb w (str "Bool") then Some SBool else None
  | Node [Atom u; Atom b; Atom n] =>
      if text_eqb u (str "_") && text_eqb b (str "BitVec") then option_map SBV (numeral n) else None
  | _ => None
  end.

Definition all_some {A B} (f : A -> option B) : list A -> option (list B) :=
  fix go l := match l with
              | [] => Some []
              | a :: l' => match f a, go l' with Some b, Some bs => Some (b :: bs) | _, _ => None end
              end.

Section Reading.
  Variable lenient : bool.
  Fixpoint read_term (x : sx) : option term :=
    match x with
    | Atom w => if symbol_ok lenient w then Some (TConst w) else None
    | Node (Atom f :: args) =>
        match args with
        | [] => None
        | _ => if symbol_ok false f then option_map (TApp f) (all_some (fun a => read_term a) args) else None
        end
    | Node _ => None
    end.
  Definition read_command (x : sx) : option command :=
    match x with
    | Node (Atom c :: args) =>
        if text_eqb c (str "set-info") then
          match args with [Atom (":"%char :: k); Atom v] => Some (SetInfo k v) | _ => None end
        else if text_eqb c (str "set-logic") then
          match args with [Atom l] => if symbol_ok false l then Some (SetLogic l) else None | _ => None end
        else if text_eqb c (str "declare-const") then
          match args with
          | [Atom x; s] => if symbol_ok lenient x then option_map (DeclareConst x) (read_sort s) else None
          | _ => None
          end
        else if text_eqb c (str "assert") then
          match args with [t] => option_map Assert (read_term t) | _ => None end
        else if text_eqb c (str "check-sat") then match args with [] => Some CheckSat | _ => None end
        else if text_eqb c (str "exit") then match args with [] => Some Exit_ | _ => None end
        else None
    | _ => None
    end.
  Definition read_script (s : text) : option (list command) :=
    match sx_read (tokens s) [] [] with
    | Some xs => all_some read_command xs
    | None => None
    end.
End Reading.

(** Well-sortedness of terms, in an environment of declared constants. *)
Definition env := list (text * sort).
Fixpoint env_find (e : env) (x : text) : option sort :=
  match e with [] => None | (y, s) :: e' => if text_eqb y x then Some s else env_find e' x end.

Definition sort_app (f : text) (args : list sort) : option sort :=
  match args with
  | [SBV n] => if in_texts f ["bvneg"; "bvnot"]%string then Some (SBV n) else None
  | [SBV m; SBV n] =>
      if m =? n then
        if in_texts f ["bvadd"; "bvsub"; "bvand"; "bvor"; "bvxor"]%string then Some (SBV n)
        else if in_texts f ["="]%string then Some SBool else None
      else None
  | [SBool] => if in_texts f ["not"]%string then Some SBool else None
  | [SBool; SBool] => if in_texts f ["and"; "or"; "="]%string then Some SBool else None
  | _ => None
  end.
Fixpoint term_sort (e : env) (t : term) : option sort :=
  match t with
  | TConst x => env_find e x
  | TApp f args =>
      match all_some (fun a => term_sort e a) args with Some ss => sort_app f ss | None => None end
  end.

(** A well-formed script: info and logic first, then declarations of fresh legal
    names and well-sorted assertions, then check-sat and exit. *)
Fixpoint body_ok (lenient : bool) (e : env) (l : list command) : Prop :=
  match l with
  | DeclareConst x s :: l' =>
      legal_name lenient x = true /\ env_find e x = None /\ body_ok lenient ((x, s) :: e) l'
  | Assert t :: l' => term_sort e t = Some SBool /\ body_ok lenient e l'
  | [CheckSat; Exit_] => True
  | _ => False
  end.
Definition script_ok (lenient : bool) (l : list command) : Prop :=
  match l with
  | SetInfo k v :: SetLogic lg :: body =>
      k = str "smt-lib-version" /\ v = str "2.6" /\ lg = str "QF_BV" /\ body_ok lenient [] body
  | _ => False
  end.

(** Values and evaluation: a bit-vector of width n is a number in [0, 2^n). *)
Inductive sval := SB (b : bool) | SV (width : Z) (z : Z).
Definition sval_of (s : sort) (v : sval) : Prop :=
  match s, v with
  | SBool, SB _ => True
  | SBV n, SV m z => n = m /\ 0 <= z < 2 ^ n
  | _, _ => False
  end.

Definition bv2 (f : text) (n a b : Z) : option Z :=
  if text_eqb f (str "bvadd") then Some ((a + b) mod 2 ^ n)
  else if text_eqb f (str "bvsub") then Some ((a + (2 ^ n - b)) mod 2 ^ n)
  else if text_eqb f (str "bvand") then Some (Z.land a b)
  else if text_eqb f (str "bvor") then Some (Z.lor a b)
  else if text_eqb f (str "bvxor") then Some (Z.lxor a b)
  else None.
Definition app_val (f : text) (args : list sval) : option sval :=
  match args with
  | [SV n a] =>
      if text_eqb f (str "bvneg") then Some (SV n ((2 ^ n - a) mod 2 ^ n))
      else if text_eqb f (str "bvnot") then Some (SV n (2 ^ n - 1 - a)) else None
  | [SV n a; SV m b] =>
      if text_eqb f (str "=") then Some (SB (a =? b)) else option_map (SV n) (bv2 f n a b)
  | [SB a] => if text_eqb f (str "not") then Some (SB (negb a)) else None
  | [SB a; SB b] =>
      if text_eqb f (str "and") then Some (SB (a && b))
      else if text_eqb f (str "or") then Some (SB (a || b))
      else if text_eqb f (str "=") then Some (SB (Bool.eqb a b)) else None
  | _ => None
  end.
Fixpoint term_val (rho : text -> sval) (t : term) : option sval :=
  match t with
  | TConst x => Some (rho x)
  | TApp f args =>
      match all_some (fun a => term_val rho a) args with Some vs => app_val f vs | None => None end
  end.

(** Satisfiable: some interpretation of the declared constants makes every
    assertion true. *)
Definition satisfiable (l : list command) : Prop :=
  exists rho : text -> sval,
    (forall x s, In (DeclareConst x s) l -> sval_of s (rho x)) /\
    (forall t, In (Assert t) l -> term_val rho t = Some (SB true)).

(** * 2. SSA operations *)

Inductive width := W8 | W16 | W32 | W64.
Definition bits (w : width) : Z := match w with W8 => 8 | W16 => 16 | W32 => 32 | W64 => 64 end.
Definition width_name (w : width) : string :=
  match w with W8 => "8" | W16 => "16" | W32 => "32" | W64 => "64" end.
Inductive intop := Add | Sub | And | Or | Xor | Neg | Com.
Inductive boolop := AndB | OrB | EqB | NeqB | NotB.
Inductive operator := IntOp (o : intop) (w : width) | BoolOp (o : boolop).

Definition intop_name (o : intop) : string :=
  match o with Add => "Add" | Sub => "Sub" | And => "And" | Or => "Or" | Xor => "Xor" | Neg => "Neg" | Com => "Com" end.
Definition boolop_name (o : boolop) : string :=
  match o with AndB => "AndB" | OrB => "OrB" | EqB => "EqB" | NeqB => "NeqB" | NotB => "Not" end.
(** The opcode of an operator, e.g. Add32. *)
Definition opcode_of (o : operator) : text :=
  match o with IntOp o w => str (intop_name o) ++ str (width_name w) | BoolOp o => str (boolop_name o) end.

(** Types and values.  An integer of width w is in [-2^(w-1), 2^(w-1)). *)
Inductive ty := TyBool | TyInt (w : width).
Inductive gval := VB (b : bool) | VI (z : Z).
Definition in_type (t : ty) (v : gval) : Prop :=
  match t, v with
  | TyBool, VB _ => True
  | TyInt w, VI z => - 2 ^ (bits w - 1) <= z < 2 ^ (bits w - 1)
  | _, _ => False
  end.
Definition params (o : operator) : list ty :=
  match o with
  | IntOp (Neg | Com) w => [TyInt w]
  | IntOp _ w => [TyInt w; TyInt w]
  | BoolOp NotB => [TyBool]
  | BoolOp _ => [TyBool; TyBool]
  end.
Definition result (o : operator) : ty := match o with IntOp _ w => TyInt w | BoolOp _ => TyBool end.

(** Wrap-around: the representative of z modulo 2^w in the range of the type. *)
Definition wrap_int (w : width) (z : Z) : Z :=
  (z + 2 ^ (bits w - 1)) mod 2 ^ bits w - 2 ^ (bits w - 1).

Definition apply (o : operator) (args : list gval) : option gval :=
  match o, args with
  | IntOp Add w, [VI a; VI b] => Some (VI (wrap_int w (a + b)))
  | IntOp Sub w, [VI a; VI b] => Some (VI (wrap_int w (a - b)))
  | IntOp And w, [VI a; VI b] => Some (VI (Z.land a b))
  | IntOp Or w, [VI a; VI b] => Some (VI (Z.lor a b))
  | IntOp Xor w, [VI a; VI b] => Some (VI (Z.lxor a b))
  | IntOp Neg w, [VI a] => Some (VI (wrap_int w (- a)))
  | IntOp Com w, [VI a] => Some (VI (Z.lnot a))
  | BoolOp AndB, [VB a; VB b] => Some (VB (a && b))
  | BoolOp OrB, [VB a; VB b] => Some (VB (a || b))
  | BoolOp EqB, [VB a; VB b] => Some (VB (Bool.eqb a b))
  | BoolOp NeqB, [VB a; VB b] => Some (VB (negb (Bool.eqb a b)))
  | BoolOp NotB, [VB a] => Some (VB (negb a))
  | _, _ => None
  end.

Definition operators : list operator :=
  flat_map (fun o => map (IntOp o) [W8; W16; W32; W64]) [Add; Sub; And; Or; Xor; Neg; Com] ++
  map BoolOp [AndB; OrB; EqB; NeqB; NotB].
Definition operator_of (c : text) : option operator := find (fun o => text_eqb (opcode_of o) c) operators.

(** * 3. Typing and validity of rules *)

(** An s-expression that uses no other feature than opcode and arguments. *)
Definition bare (s : sexpr) : Prop :=
  s_binding s = [] /\ s_type s = [] /\ s_auxint s = None /\ s_aux s = None /\
  s_ellipsis s = false /\ s_trailing s = false.

Inductive typed (G : text -> ty) : value -> ty -> Prop :=
| typed_var x : typed G (Var x) (G x)
| typed_op s o :
    bare s -> s_op s = Opcode (opcode_of o) -> Forall2 (typed G) (s_args s) (params o) ->
    typed G (SExp s) (result o).

(** The value of a tree under an assignment of its variables. *)
Fixpoint meaning (rho : text -> gval) (v : value) : option gval :=
  match v with
  | Var x => Some (rho x)
  | SExp s =>
      match s_op s with
      | Opcode c =>
          match operator_of c, all_some (fun a => meaning rho a) (s_args s) with
          | Some o, Some vs => apply o vs
          | _, _ => None
          end
      | _ => None
      end
  | _ => None
  end.

(** The variables of a tree, in reading order; of a rule, match first. *)
Fixpoint value_vars (v : value) : list text :=
  match v with SExp s => flat_map value_vars (s_args s) | Var x => [x] | _ => [] end.
Definition rule_vars (r : rule) : list text := value_vars (r_match r) ++ value_vars (r_result r).

Definition rule_typed (G : text -> ty) (r : rule) : Prop :=
  exists t, typed G (r_match r) t /\ typed G (r_result r) t.

(** Both sides have the same value whatever the variables hold. *)
Definition rule_valid (r : rule) : Prop :=
  exists G, rule_typed G r /\
    forall rho, (forall x, in_type (G x) (rho x)) ->
      exists a, meaning rho (r_match r) = Some a /\ meaning rho (r_result r) = Some a.

(** The elements of [l] without repetitions, in order of first occurrence. *)
Fixpoint firsts (seen l : list text) : list text :=
  match l with
  | [] => []
  | x :: l' => if existsb (text_eqb x) seen then firsts seen l' else x :: firsts (x :: seen) l'
  end.
