(** What a reader delivers. *)
From Verif Require Import Text ReadAll.

(** From the state [s] the reader delivers the text [t] in pieces and then ends with
    [e], however much room each Read is given (as long as it is given some): each Read
    gives a beginning of what is left, which fits, and only the last one gives the
    ending. Reads may give nothing, but not for ever. *)
Inductive delivers {S} (rd : reader S) : S -> text -> read_err -> Prop :=
| del s t e :
    (forall n c s', 0 < n -> rd s n = (c, None, s') -> List.length c <= n /\ exists t', t = c ++ t' /\ delivers rd s' t' e) ->
    (forall n c e' s', 0 < n -> rd s n = (c, Some e', s') -> List.length c <= n /\ t = c /\ e' = e) ->
    delivers rd s t e.
