(** Model of printer/printer.go and smt2/generate.go on the heap of Heap.v.  Printer.v and
    Smt.v model the same functions on trees; HeapPrintFacts.v relates the two.  A struct is
    read in one go (as in HeapWalk.v); the go/ast nodes of an ast.Expr are one cell. *)
From Verif Require Import Text GoAst Ast Printer Smt Heap.
From Coq Require Import Arith Bool.

(** An ast.Node that is a pointer or an interface value: a *ast.File, a *ast.Rule or an
    ast.Value, possibly nil (printer/printer.go:31). *)
Inductive pnode := PFile (p : ptr) | PWord (w : word).

Section Printer.
  Context {W : Type}.
  Variable write : W -> text -> W * option text.
  Notation printf := (printf write).
  Notation p_op := (p_op write).
  Notation p_goexpr := (p_goexpr write).

  (** op, printer/printer.go:154-165. *)
  Definition hp_op (o : hop) (p : printer W) : M (printer W) :=
    match o with
    | HOpcode c => ret (p_op (Opcode c) p)
    | HParts a => do c <- get a; match c with CParts ps => ret (p_op (OpcodeParts ps) p) | _ => panics ill_typed end
    | HNilOp => ret (p_op NilOp p)
    end.
  (** p.goexpr(x.Expr) for a *ast.Expr x, printer/printer.go:75, 95, 120, 127. *)
  Definition hp_expr (x : ptr) (p : printer W) : M (printer W) :=
    match x with
    | None => panics nil_deref
    | Some a => do c <- get a; match c with CExpr e => ret (p_goexpr e p) | _ => panics ill_typed end
    end.
  (** An optional *ast.Expr between brackets, printer/printer.go:117-129. *)
  Definition hp_opt (x : ptr) (opening closing : text) (p : printer W) : M (printer W) :=
    match x with
    | None => ret p
    | Some _ => do p <- hp_expr x (printf opening p); ret (printf closing p)
    end.
  (** The loop over the arguments, printer/printer.go:132-135; [k] remain from index [j]. *)
  Fixpoint hp_args (value : word -> printer W -> M (printer W)) (args : slice) (k j : nat) (p : printer W) : M (printer W) :=
    match k with
    | 0 => ret p
    | S k' => do w <- at_ args j; do p <- value w (printf (str " ") p); hp_args value args k' (S j) p
    end.
  (** value and sexpr, printer/printer.go:90-152.  The fuel bounds the stack. *)
  Fixpoint hp_value (fuel : nat) (v : word) (p : printer W) : M (printer W) :=
    match fuel with
    | 0 => panics (str "stack overflow")
    | S fuel' =>
        match v with
        | WSExpr None => panics nil_deref
        | WSExpr (Some a) =>
            do s <- get_sexpr a;
            let p := match h_binding s with [] => p | b => printf (b ++ str ":") p end in
            let p := printf (str "(") p in
            do p <- hp_op (h_op s) p;
            let p := match h_type s with [] => p | t => printf (str " <" ++ t ++ str ">") p end in
            do p <- hp_opt (h_auxint s) (str " [") (str "]") p;
            do p <- hp_opt (h_aux s) (str " {") (str "}") p;
            do p <- hp_args (hp_value fuel') (h_args s) (sl_len (h_args s)) 0 p;
            let p := if h_ellipsis s then printf (str " ...") p else p in
            let p := if h_trailing s then printf (str " ___") p else p in
            ret (printf (str ")") p)
        | WExpr x => hp_expr x p
        | WVar x => ret (printf x p)
        | WNil => ret (seterror (Some (unexpected_type (str "<nil>"))) p)
        | WRule _ => panics ill_typed
        end
    end.
  (** rule, printer/printer.go:68-88. *)
  Definition hp_rule (fuel : nat) (r : ptr) (p : printer W) : M (printer W) :=
    match r with
    | None => panics nil_deref
    | Some r =>
        do c <- get_rule r;
        do p <- hp_value fuel (h_match c) p;
        do c <- get_rule r;
        do p <- (match h_cond c with None => ret p | Some _ => hp_expr (h_cond c) (printf (str " && ") p) end);
        let p := printf (str " => ") p in
        let p := match h_block c with [] => p | b => printf (str "@" ++ b ++ str " ") p end in
        hp_value fuel (h_result c) p
    end.
  (** The loop of node over the rules of a file, printer/printer.go:48-52. *)
  Fixpoint hp_rules (fuel : nat) (rules : slice) (k j : nat) (p : printer W) : M (printer W) :=
    match k with
    | 0 => ret p
    | S k' =>
        do w <- at_ rules j;
        match w with
        | WRule r => do p <- hp_rule fuel r p; hp_rules fuel rules k' (S j) (printf [nl] p)
        | _ => panics ill_typed
        end
    end.
  (** node, printer/printer.go:46-66. *)
  Definition hp_node (fuel : nat) (n : pnode) (p : printer W) : M (printer W) :=
    match n with
    | PFile None => panics nil_deref
    | PFile (Some f) =>
        do c <- get f;
        match c with CFile rules => hp_rules fuel rules (sl_len rules) 0 p | _ => panics ill_typed end
    | PWord (WRule r) => hp_rule fuel r p
    | PWord w => hp_value fuel w p
    end.
  (** Fprint, printer/printer.go:31-35. *)
  Definition hp_Fprint (fuel : nat) (w : W) (n : pnode) : M (W * option text) :=
    do p <- hp_node fuel n {| p_w := w; p_err := None |}; ret (p_w p, p_err p).
End Printer.

(** Bytes, printer/printer.go:17-23. *)
Definition hp_Bytes (fuel : nat) (n : pnode) : M text :=
  do r <- hp_Fprint buf_write fuel [] n;
  match r with (b, None) => ret b | (_, Some e) => fails e end.

(** Wrapping an error with a prefix (smt2/generate.go:109,185,196,204). *)
Fixpoint mwrap {A} (prefix : text) (m : M A) : M A :=
  match m with
  | Done r => Done (wrap prefix r)
  | Load p k => Load p (fun o => mwrap prefix (k o))
  | New c k => New c (fun a => mwrap prefix (k a))
  | Store p c k => Store p c (mwrap prefix k)
  end.

(** The checks of sexpr before its arguments are evaluated, smt2/generate.go:155-180. *)
Definition hg_precheck (s : hsexpr) : res (text * simple) :=
  if negb (match h_binding s with [] => true | _ => false end) then Err (not_supported (str "sexpr binding"))
  else if negb (match h_type s with [] => true | _ => false end) then Err (not_supported (str "sexpr type field"))
  else match h_auxint s with Some _ => Err (not_supported (str "sexpr auxint field")) | None =>
       match h_aux s with Some _ => Err (not_supported (str "sexpr aux field")) | None =>
       if h_ellipsis s then Err (not_supported (str "sexpr ellipsis"))
       else if h_trailing s then Err (not_supported (str "sexpr trailing"))
       else match h_op s with
            | HOpcode c =>
                match lookup_op operations c with
                | Some o => Ok (c, o)
                | None => Err (not_supported (str "opcode " ++ c))
                end
            | _ => Err (str "unexpanded opcode")
            end
       end end.

(** The argument loop of sexpr, smt2/generate.go:192-199; [k] remain from index [j]. *)
Fixpoint hg_args (c : text) (eval : word -> option gtype -> gen -> M (svalue * gen)) (args : slice) (k j : nat)
  (params : list (option gtype)) (g : gen) : M (list svalue * gen) :=
  match k with
  | 0 => ret ([], g)
  | S k' =>
      do w <- at_ args j;
      match params with
      | t :: params' =>
          do r <- mwrap (c ++ str ": evaluate argument " ++ dec j ++ str ": ") (eval w t g);
          do rs <- hg_args c eval args k' (S j) params' (snd r);
          ret (fst r :: fst rs, snd rs)
      | [] => panics (str "runtime error: index out of range")
      end
  end.

(** eval and sexpr, smt2/generate.go:80-91,154-208. *)
Fixpoint hg_eval (fuel : nat) (v : word) (t : option gtype) (g : gen) : M (svalue * gen) :=
  match fuel with
  | 0 => panics (str "stack overflow")
  | S fuel' =>
      match v with
      | WVar x => lift (g_variable x t g)
      | WSExpr None => panics nil_deref
      | WSExpr (Some a) =>
          do s <- get_sexpr a;
          do co <- lift (hg_precheck s);
          do params <- lift (wrap (fst co ++ str ": ") (op_params (snd co) t));
          if negb (List.length params =? sl_len (h_args s)) then
            fails (fst co ++ str ": expect " ++ dec (List.length params) ++ str " arguments got " ++ dec (sl_len (h_args s)))
          else
            do r <- hg_args (fst co) (hg_eval fuel') (h_args s) (sl_len (h_args s)) 0 params g;
            do v <- lift (wrap (fst co ++ str ": ") (op_evaluate (snd co) (fst r)));
            ret (v, snd r)
      | WExpr _ => fails (unexpected_type (str "*ast.Expr"))
      | WNil => fails (unexpected_type (str "<nil>"))
      | WRule _ => panics ill_typed
      end
  end.

(** generate, smt2/generate.go:36-78. *)
Definition hg_generate (fuel : nat) (r : ptr) (g : gen) : M gen :=
  let g := g_printf (str "(set-info :smt-lib-version 2.6)" ++ [nl]) g in
  let g := g_printf (str "(set-logic QF_BV)" ++ [nl]) g in
  do ruletext <- hp_Bytes fuel (PWord (WRule r));
  let g := g_printf (str "; " ++ comment_lines ruletext ++ [nl]) g in
  match r with
  | None => panics nil_deref
  | Some r =>
      do c <- get_rule r;
      do mg <- hg_eval fuel (h_match c) None g;
      do c <- get_rule r;
      match h_cond c with
      | Some _ => fails (not_supported (str "rule conditions"))
      | None =>
          match h_block c with
          | _ :: _ => fails (not_supported (str "rule blocks"))
          | [] =>
              do xg <- hg_eval fuel (h_result c) (Some (v_type (fst mg))) (snd mg);
              let g := g_printf (str "(assert (not (= " ++ v_expr (fst mg) ++ str " " ++ v_expr (fst xg) ++ str ")))" ++ [nl]) (snd xg) in
              let g := g_printf (str "(check-sat)" ++ [nl]) g in
              let g := g_printf (str "(exit)" ++ [nl]) g in
              ret g
          end
      end
  end.

(** Generate, smt2/generate.go:16-27. *)
Definition hg_Generate (fuel : nat) (r : ptr) : M text :=
  do g <- hg_generate fuel r {| g_out := []; g_vars := [] |}; ret (g_out g).
