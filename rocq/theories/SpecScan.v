(** The words that the scanner of the reference model of go/parser, GoParser.v, reads. *)
From Verif Require Import Text GoAst GoParser.
From Coq Require Import NArith.

(** What it reads as one identifier or literal, from the first character, and then the
    end of the line. *)
Definition scanned_name (x : text) : Prop := exists p, scan x = Ok [(TIdent x, 1%N); (TSemi, p)].
Definition scanned_literal (k : litkind) (v : text) : Prop := exists p, scan v = Ok [(TLit k v, 1%N); (TSemi, p)].
