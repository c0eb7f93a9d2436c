(** What a grammar of parsing expressions means: the standard reading of a PEG
    (ordered choice, greedy repetition, syntactic predicates), over texts only, with
    the values and labels that pigeon gives to actions.

    [sem e en t (Good v en' r)]: matching [e] at the start of [t], with the labels [en]
    bound so far, yields the value [v] and leaves [r]; the labels are then [en'].
    [sem e en t Fail]: [e] does not match at the start of [t].
    There is no case for an action that reports an error: then [sem] does not hold, not
    even if the action belongs to an alternative that is abandoned afterwards. *)
From Verif Require Import Text GoAst Ast Utf8 Peg.
From Coq Require Import NArith Arith Bool Lia.
Open Scope N_scope.

Inductive out := Fail | Good (v : val) (en : env) (r : text).

(** What lies between [t] and its suffix [r]. *)
Definition consumed (t r : text) : text := firstn (List.length t - List.length r) t.
(** Matching a literal of one-byte runes. *)
Fixpoint lit_match (rs : list N) (t : text) : option text :=
  match rs, t with
  | [], _ => Some t
  | x :: rs', c :: t' => if byte_val c =? x then lit_match rs' t' else None
  | _ :: _, [] => None
  end.

Definition in_class (chars : list N) (ranges : list (N * N)) (inverted : bool) (x : N) : bool :=
  xorb (existsb (N.eqb x) chars || existsb (fun '(lo, hi) => (lo <=? x) && (x <=? hi)) ranges) inverted.

(** The first rune of a text, and what follows it. *)
Definition first_rune (t : text) : N := fst (decode_rune t).
Definition after_rune (t : text) : text := skipn (snd (decode_rune t)) t.
Definition first_bytes (t : text) : text := firstn (snd (decode_rune t)) t.

Section Sem.
  Context {A : Type}.
  Variable run_action : A -> text -> env -> ares.
  Variable grammar : text -> option (pexpr A).

  Inductive sem : pexpr A -> env -> text -> out -> Prop :=
  | sem_action a e en t v en' r v' : sem e en t (Good v en' r) ->
      run_action a (consumed t r) en' = AOk v' -> sem (PAction a e) en t (Good v' en' r)
  | sem_action_fail a e en t : sem e en t Fail -> sem (PAction a e) en t Fail
  | sem_choice es en t o : sem_alts es en t o -> sem (PChoice es) en t o
  | sem_label l e en t v en' r : sem e [] t (Good v en' r) -> sem (PLabel l e) en t (Good v ((l, v) :: en) r)
  | sem_label_fail l e en t : sem e [] t Fail -> sem (PLabel l e) en t Fail
  | sem_sequence es en t o : sem_seq es [] en t o -> sem (PSeq es) en t o
  | sem_not e en t v en' r : sem e [] t (Good v en' r) -> sem (PNot e) en t Fail
  | sem_not_fail e en t : sem e [] t Fail -> sem (PNot e) en t (Good VNil en t)
  | sem_opt e en t v en' r : sem e [] t (Good v en' r) -> sem (POpt e) en t (Good v en r)
  | sem_opt_fail e en t : sem e [] t Fail -> sem (POpt e) en t (Good VNil en t)
  | sem_star e en t vs r : sem_rep e t vs r -> sem (PStar e) en t (Good (VSlice vs) en r)
  | sem_plus e en t v vs r : sem_rep e t (v :: vs) r -> sem (PPlus e) en t (Good (VSlice (v :: vs)) en r)
  | sem_plus_fail e en t r : sem_rep e t [] r -> sem (PPlus e) en t Fail
  | sem_ref name b en t v en' r : grammar name = Some b -> sem b [] t (Good v en' r) ->
      sem (PRef name) en t (Good v en r)
  | sem_ref_fail name b en t : grammar name = Some b -> sem b [] t Fail -> sem (PRef name) en t Fail
  | sem_lit rs want en t r : lit_match rs t = Some r -> sem (PLit rs want) en t (Good (VBytes (consumed t r)) en r)
  | sem_lit_fail rs want en t : lit_match rs t = None -> sem (PLit rs want) en t Fail
  | sem_class v cs rs inv en t : t <> [] -> in_class cs rs inv (first_rune t) = true ->
      sem (PClass v cs rs inv) en t (Good (VBytes (first_bytes t)) en (after_rune t))
  | sem_class_fail v cs rs inv en t : t = [] \/ in_class cs rs inv (first_rune t) = false ->
      sem (PClass v cs rs inv) en t Fail
  | sem_any en t : t <> [] -> sem PAny en t (Good (VBytes (first_bytes t)) en (after_rune t))
  | sem_any_fail en : sem PAny en [] Fail
  with sem_alts : list (pexpr A) -> env -> text -> out -> Prop :=
  | alts_nil en t : sem_alts [] en t Fail
  | alts_good e es en t v en' r : sem e [] t (Good v en' r) -> sem_alts (e :: es) en t (Good v en r)
  | alts_fail e es en t o : sem e [] t Fail -> sem_alts es en t o -> sem_alts (e :: es) en t o
  with sem_seq : list (pexpr A) -> list val -> env -> text -> out -> Prop :=
  | seq_nil vals en t : sem_seq [] vals en t (Good (VSlice vals) en t)
  | seq_cons e es vals en t v en' r o : sem e en t (Good v en' r) -> sem_seq es (vals ++ [v]) en' r o ->
      sem_seq (e :: es) vals en t o
  | seq_fail e es vals en t : sem e en t Fail -> sem_seq (e :: es) vals en t Fail
  (** [e] matched one time per value, and then no more. *)
  with sem_rep : pexpr A -> text -> list val -> text -> Prop :=
  | rep_nil e t : sem e [] t Fail -> sem_rep e t [] t
  | rep_cons e t v en r vs r' : sem e [] t (Good v en r) -> sem_rep e r vs r' -> sem_rep e t (v :: vs) r'.

End Sem.
