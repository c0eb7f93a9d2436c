(** Model of go/ast.Fprint as ast.Fprint and ast.Dump (ast/ast.go:91-108) call it, on the
    heap of Heap.v: with the map from pointers to lines (src/go/ast/print.go of Go 1.16,
    printer.ptrmap) that Dump.v leaves out.  Simplifications: the go/ast nodes inside an
    ast.Expr are met once (Heap.v has them as one cell); an empty slice is nil; as in
    Dump.v, ast.Ident.Obj is nil. *)
From Verif Require Import Text GoAst Ast Utf8 Quote Parse Heap Dump.
From Coq Require Import Arith Bool NArith.
Open Scope nat_scope.
Open Scope list_scope.

(** What Fprint is given: a *ast.File, or a value or *ast.Rule (ast/ast.go:106). *)
Inductive hnode := HFile (p : ptr) | HWord (w : word).

Section Printing.
  Context {W : Type}.
  Variable write : W -> text -> W * option text.
  Variable wide_print : N -> bool.
  Variable other : text -> list act.
  Variable g : nat -> option cell.   (* the cells; nothing is written *)

  (** The printer (print.go, type printer): Dump.v's and ptrmap.  A pointer stands for the
      pair of its type and address: the cells have one type each. *)
  Record hprinter := { hp : dprinter W; hp_ptrmap : list (nat * nat) }.
  (** A statement of print: the printer after it (print.go, printer.print). *)
  Definition D := hprinter -> res hprinter.
  (** Statement sequence. *)
  Definition then_ (a b : D) : D := fun s => match a s with Ok s' => b s' | Err e => Err e | Panic m => Panic m end.
  Infix ";;" := then_ (at level 61, left associativity).
  (** Printing without following pointers, as Dump.v. *)
  Definition say (l : list act) : D := fun s => Ok {| hp := fold_left (d_act write) l (hp s); hp_ptrmap := hp_ptrmap s |}.
  (** The empty statement. *)
  Definition nothing : D := say [].
  (** A panic. *)
  Definition fault (m : text) : D := fun _ => Panic m.

  (** print.go, case reflect.Ptr, for a pointer that is not nil. *)
  Fixpoint lookup (p : nat) (m : list (nat * nat)) : option nat :=
    match m with [] => None | (q, l) :: m => if p =? q then Some l else lookup p m end.
  (** print.go, case reflect.Ptr: a pointer met before is printed as its line. *)
  Definition h_ptr (p : nat) (elem : D) : D :=
    say [Pr (str "*")] ;;
    fun s => match lookup p (hp_ptrmap s) with
             | Some line => say [Pr (str "(obj @ " ++ dec line ++ str ")")] s
             | None => elem {| hp := hp s; hp_ptrmap := (p, d_line (hp s)) :: hp_ptrmap s |}
             end.
  (** print.go, case reflect.Struct; [None] for the fields NotNilFilter rejects. *)
  Fixpoint h_fields (first : bool) (fields : list (string * option D)) : D :=
    match fields with
    | [] => nothing
    | (_, None) :: fs => h_fields first fs
    | (name, Some v) :: fs =>
        (if first then say [Pr [nl]] else nothing) ;; say [Pr (str name ++ str ": ")] ;; v ;; say [Pr [nl]] ;; h_fields false fs
    end.
  Definition h_struct (ty : string) (fields : list (string * option D)) : D :=
    say [Pr (str ty ++ str " {"); In_] ;; h_fields true fields ;; say [Out_; Pr (str "}")].
  (** print.go, case reflect.Slice. *)
  Fixpoint h_elems (i : nat) (l : list D) : D :=
    match l with
    | [] => nothing
    | v :: l => say [Pr (dec i ++ str ": ")] ;; v ;; say [Pr [nl]] ;; h_elems (S i) l
    end.
  Definition h_slice (ty : string) (l : list D) : D :=
    say [Pr (str ty ++ str " (len = " ++ dec (List.length l) ++ str ") {"); In_; Pr [nl]] ;; h_elems 0 l ;; say [Out_; Pr (str "}")].
  (** A field of a slice type (print.go, case reflect.Slice). *)
  Definition f_elems (ty : string) (elem : word -> D) (sl : slice) : option D :=
    if sl_len sl =? 0 then None else
    Some match g (sl_arr sl) with
         | Some (CArr l) =>
             let ws := firstn (sl_len sl) (skipn (sl_off sl) l) in
             if List.length ws =? sl_len sl then h_slice ty (map elem ws) else fault ill_typed
         | _ => fault ill_typed
         end.

  Definition nil_text : D := say [Pr (str "nil")].
  Definition lift_acts (o : option (list act)) : option D := option_map say o.
  (** *ast.Expr, ast/ast.go:77-79. *)
  Definition h_expr (p : nat) : D :=
    h_ptr p match g p with
            | Some (CExpr e) => h_struct "ast.Expr" [("Expr"%string, match e with GNil => None | _ => Some (say (a_gexpr wide_print other e)) end)]
            | _ => fault ill_typed
            end.
  Definition h_opfield (o : hop) : option D :=
    match o with
    | HOpcode c => Some (say [Pr c])
    | HParts a => Some match g a with Some (CParts ps) => say (a_op (OpcodeParts ps)) | _ => fault ill_typed end
    | HNilOp => None
    end.
  (** A field of type Value (ast/ast.go:29-32): a nil interface is left out, a nil pointer
      in it is not. *)
  Definition f_word (elem : word -> D) (w : word) : option D :=
    match w with WNil => None | _ => Some (elem w) end.

  (** *ast.SExpr (ast/ast.go:34-43), *ast.Rule (ast/ast.go:20-25) and the other values.
      The fuel bounds the stack. *)
  Fixpoint h_word (fuel : nat) (w : word) : D :=
    match fuel with
    | 0 => fault (str "stack overflow")
    | S fuel =>
        match w with
        | WNil | WSExpr None | WExpr None | WRule None => nil_text
        | WVar x => say [Pr x]
        | WExpr (Some p) => h_expr p
        | WSExpr (Some p) =>
            h_ptr p match g p with
            | Some (CSExpr c) =>
                h_struct "ast.SExpr" [("Binding"%string, lift_acts (a_text (h_binding c))); ("Op"%string, h_opfield (Heap.h_op c));
                  ("Type"%string, lift_acts (a_text (h_type c)));
                  ("AuxInt"%string, option_map h_expr (h_auxint c)); ("Aux"%string, option_map h_expr (h_aux c));
                  ("Args"%string, f_elems "[]ast.Value" (h_word fuel) (h_args c));
                  ("Ellipsis"%string, lift_acts (a_bool (h_ellipsis c))); ("Trailing"%string, lift_acts (a_bool (h_trailing c)))]
            | _ => fault ill_typed
            end
        | WRule (Some p) =>
            h_ptr p match g p with
            | Some (CRule c) =>
                h_struct "ast.Rule" [("Match"%string, f_word (h_word fuel) (h_match c)); ("Condition"%string, option_map h_expr (h_cond c));
                  ("Block"%string, lift_acts (a_string wide_print (h_block c))); ("Result"%string, f_word (h_word fuel) (h_result c))]
            | _ => fault ill_typed
            end
        end
    end.
  (** *ast.File, ast/ast.go:14-18. *)
  Definition h_file (fuel : nat) (p : ptr) : D :=
    match p with
    | None => nil_text
    | Some p =>
        h_ptr p match g p with
        | Some (CFile sl) => h_struct "ast.File" [("Rules"%string, f_elems "[]*ast.Rule" (h_word fuel) sl)]
        | _ => fault ill_typed
        end
    end.

  (** fprint, print.go; Fprint, ast/ast.go:105-108. *)
  Definition h_print (fuel : nat) (n : hnode) : D :=
    match n with HFile p => h_file fuel p | HWord w => h_word fuel w end ;; say [Pr [nl]].
  (** ast.Fprint, ast/ast.go:106-108. *)
  Definition h_Fprint (fuel : nat) (n : hnode) (w : W) : res (W * option text) :=
    match h_print fuel n {| hp := {| d_w := w; d_err := None; d_indent := 0; d_last := nl; d_line := 0 |}; hp_ptrmap := [] |} with
    | Ok s => Ok (d_w (hp s), d_err (hp s))
    | Err e => Err e
    | Panic m => Panic m
    end.
End Printing.
Arguments hprinter : clear implicits.

(** Dump, ast/ast.go:96-103. *)
Definition h_Dump (wide_print : N -> bool) (other : text -> list act) (g : nat -> option cell) (fuel : nat) (n : hnode) : res text :=
  match h_Fprint (fun w chunk => (w ++ chunk, None)) wide_print other g fuel n [] with
  | Ok (b, None) => Ok b
  | Ok (_, Some e) => Err e
  | Err e => Err e
  | Panic m => Panic m
  end.
