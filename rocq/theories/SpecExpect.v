(** What a syntax error says was expected: the specification of C65. *)
From Verif Require Import Text GoAst Ast Utf8 Peg SpecPeg Grammar SpecSyntax SpecPrint.
From Coq Require Import NArith Arith Bool.
Open Scope nat_scope.
Open Scope list_scope.

(** ** Matching a grammar, and the places where it looks at the text *)
Section Reads.
  Context {A : Type}.
  Variable grammar : text -> option (pexpr A).
  Definition terminal (e : pexpr A) : Prop := match e with PLit _ _ | PClass _ _ _ _ | PAny => True | _ => False end.
  (** What is left when a terminal matches the beginning of the text. *)
  Definition matches (e : pexpr A) (t : text) : option text :=
    match e with
    | PLit runes _ => lit_match runes t
    | PClass _ chars ranges inverted =>
        match t with [] => None | _ => if in_class chars ranges inverted (first_rune t) then Some (after_rune t) else None end
    | PAny => match t with [] => None | _ => Some (after_rune t) end
    | _ => None
    end.
  (** A terminal is tried where this much of the text is left; within a negation, where
      it should not match. *)
  Record look := mkLook { left_ : text; tried : pexpr A; negated : bool }.
  Definition flip (l : look) : look := mkLook (left_ l) (tried l) (negb (negated l)).

  (** [reads e t o tr]: matching [e] against the beginning of [t] succeeds and leaves [r]
      ([o = Some r]) or does not ([o = None]), trying the terminals [tr], in this order. *)
  Inductive reads : pexpr A -> text -> option text -> list look -> Prop :=
  | rd_terminal e t : terminal e -> reads e t (matches e t) [mkLook t e false]
  | rd_action a e t o tr : reads e t o tr -> reads (PAction a e) t o tr
  | rd_label l e t o tr : reads e t o tr -> reads (PLabel l e) t o tr
  | rd_ref n e t o tr : grammar n = Some e -> reads e t o tr -> reads (PRef n) t o tr
  | rd_choice_none t : reads (PChoice []) t None []
  | rd_choice_first e es t r tr : reads e t (Some r) tr -> reads (PChoice (e :: es)) t (Some r) tr
  | rd_choice_next e es t o tr tr' : reads e t None tr -> reads (PChoice es) t o tr' -> reads (PChoice (e :: es)) t o (tr ++ tr')
  | rd_seq_end t : reads (PSeq []) t (Some t) []
  | rd_seq_fail e es t tr : reads e t None tr -> reads (PSeq (e :: es)) t None tr
  | rd_seq_next e es t r o tr tr' : reads e t (Some r) tr -> reads (PSeq es) r o tr' -> reads (PSeq (e :: es)) t o (tr ++ tr')
  | rd_not_fail e t r tr : reads e t (Some r) tr -> reads (PNot e) t None (map flip tr)
  | rd_not e t tr : reads e t None tr -> reads (PNot e) t (Some t) (map flip tr)
  | rd_opt e t r tr : reads e t (Some r) tr -> reads (POpt e) t (Some r) tr
  | rd_opt_none e t tr : reads e t None tr -> reads (POpt e) t (Some t) tr
  | rd_star_end e t tr : reads e t None tr -> reads (PStar e) t (Some t) tr
  | rd_star_more e t r o tr tr' : reads e t (Some r) tr -> reads (PStar e) r o tr' -> reads (PStar e) t o (tr ++ tr')
  | rd_plus_fail e t tr : reads e t None tr -> reads (PPlus e) t None tr
  | rd_plus e t r o tr tr' : reads e t (Some r) tr -> reads (PStar e) r o tr' -> reads (PPlus e) t o (tr ++ tr').

  (** A look that went wrong: the terminal is not there, or is there and should not be. *)
  Definition disappointed (l : look) : Prop := if negated l then matches (tried l) (left_ l) <> None else matches (tried l) (left_ l) = None.
  (** How it is shown. *)
  Definition display (e : pexpr A) : text := match e with PLit _ w => w | PClass w _ _ _ => w | _ => str "." end.
  Definition shown (l : look) : text := (if negated l then str "!" else []) ++ display (tried l).
End Reads.
Arguments look : clear implicits.
Arguments mkLook {A}.

(** ** The list *)
(** In the order of the bytes. *)
Inductive before : text -> text -> Prop :=
| bf_end c t : before [] (c :: t)
| bf_less c d s t : nat_of_ascii c < nat_of_ascii d -> before (c :: s) (d :: t)
| bf_same c s t : before s t -> before (c :: s) (c :: t).
Inductive ascending : list text -> Prop :=
| asc_nil : ascending []
| asc_one x : ascending [x]
| asc_more x y l : before x y -> ascending (y :: l) -> ascending (x :: y :: l).
(** "a", "a or b", "a, b or c", ... *)
Inductive enumerated : list text -> text -> Prop :=
| en_one x : enumerated [x] x
| en_more l x t : l <> [] -> t = sep_by (str ", ") l -> enumerated (l ++ [x]) (t ++ str " or " ++ x).
(** The items of the list, given all that is to be listed: each once, in order; the
    negation of "." is called EOF and comes last. *)
Definition items (wanted : text -> Prop) (l : list text) : Prop :=
  exists front, ascending front /\ (forall w, In w front <-> wanted w /\ w <> str "!.") /\
    (wanted (str "!.") /\ l = front ++ [str "EOF"] \/ ~ wanted (str "!.") /\ l = front).

(** The places where something went wrong: at most [k] bytes in; what went wrong there. *)
Definition farthest {A} (data : text) (tr : list (look A)) (k : nat) (wanted : text -> Prop) : Prop :=
  (forall l, In l tr -> disappointed l -> List.length data <= List.length (left_ l) + k) /\
  (forall w, wanted w <-> exists l, In l tr /\ disappointed l /\ left_ l = skipn k data /\ w = shown l).

(** ** What the items mean *)
(** A character in a literal, as it is and as it is shown. *)
Inductive spelled_char : ascii -> text -> Prop :=
| sc_plain c : c <> "\"%char -> c <> dquote -> c <> nl -> spelled_char c [c]
| sc_newline : spelled_char nl (str "\n").
(** The characters that a class lists: single ones, escapes and ranges. *)
Fixpoint in_body (body : text) (x : ascii) : bool :=
  match body with
  | [] => false
  | "\"%char :: "n"%char :: body => (if ascii_dec x nl then true else false) || in_body body x
  | "\"%char :: "t"%char :: body => (if ascii_dec x tab then true else false) || in_body body x
  | "\"%char :: "r"%char :: body => (if ascii_dec x cr then true else false) || in_body body x
  | lo :: "-"%char :: hi :: body => (nat_of_ascii lo <=? nat_of_ascii x) && (nat_of_ascii x <=? nat_of_ascii hi) || in_body body x
  | c :: body => (if ascii_dec x c then true else false) || in_body body x
  end.
(** [says w P]: the item [w] says that the text satisfies [P]. *)
Inductive says : text -> (text -> Prop) -> Prop :=
| sy_literal chars lit : Forall2 spelled_char lit chars -> lit <> [] ->
    says ([dquote] ++ List.concat chars ++ [dquote]) (fun t => exists r, t = lit ++ r)
| sy_class body : hd_error body <> Some "^"%char -> says (str "[" ++ body ++ str "]") (fun t => exists c r, t = c :: r /\ in_body body c = true)
| sy_class_not body : says (str "[^" ++ body ++ str "]") (fun t => exists c r, t = c :: r /\ in_body body c = false)
| sy_any : says (str ".") (fun t => t <> [])
| sy_not w P : says w P -> says (str "!" ++ w) (fun t => ~ P t)
| sy_eof : says (str "EOF") (fun t => t = []).
