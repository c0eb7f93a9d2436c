(** C73: a source can be cut into its rules, and put together again in any order. *)
From Verif Require Import Text GoAst Ast Utf8 GoExpr Parse GoParser SpecPrint SpecUtf8 SpecSyntax SpecSource SynShape SynFile SynExtend CutFacts ParseUse PropertiesParse.
From Coq Require Import NArith Arith Bool Lia.
Open Scope nat_scope.
Open Scope list_scope.

Lemma pick_one {A B} (R : A -> B -> Prop) l l' n a : Forall2 R l l' -> nth_error l n = Some a -> exists b, nth_error l' n = Some b /\ R a b.
Proof. intros F. revert n. induction F as [|x y l l' H F IH]; intros [|n] E; try discriminate; cbn in *; [injection E as ->; eauto|auto]. Qed.

(** Every accepted source consists of one text per rule, and each of them is accepted by
    itself, as that rule. *)
Theorem C73_cut :
  forall gp fn data rs, Parse gp fn data = Ok (mkFile rs) ->
    exists texts, data = List.concat texts /\
      Forall2 (fun t r => forall fn', Parse gp fn' t = Ok (mkFile [r])) texts rs.
Proof.
  intros gp fn data rs H. apply parse_source in H. destruct H as [U S]. destruct (source_cut gp _ _ S) as (ps & -> & F & P). exists ps. split; [reflexivity|].
  pose proof (utf8_pieces ps P U) as Up. clear U S P. assert (G : forall l l', Forall2 (fun p r => source_form gp p [r]) l l' -> Forall utf8 l -> Forall2 (fun t r => forall fn', Parse gp fn' t = Ok (mkFile [r])) l l').
  { induction 1 as [|p r l l' H G IH]; intros V; [constructor|]. inversion V; subst. constructor; [|auto]. intros fn'. apply parse_source. split; assumption. }
  exact (G ps rs F Up).
Qed.
Print Assumptions C73_cut.
(** These texts, or those of any sources of one rule each, may be left out, repeated, put
    in another order and mixed: on lines of their own they give those rules in that order. *)
Theorem C73_rearrange :
  forall gp fn texts rs, no_comment_expr gp -> texts <> [] ->
    Forall2 (fun t r => Parse gp fn t = Ok (mkFile [r])) texts rs ->
    Parse gp fn (sep_by [nl] texts) = Ok (mkFile rs).
Proof.
  intros gp fn texts rs N Ne F. induction F as [|t r texts l H F IH]; [congruence|]. destruct F as [|u r2 texts l H2 F]; [exact H|].
  change (sep_by [nl] (t :: u :: texts)) with (t ++ [nl] ++ sep_by [nl] (u :: texts)). change (r :: r2 :: l) with ([r] ++ r2 :: l). apply C06_concatenation; [exact N|exact H|apply IH; discriminate|discriminate].
Qed.
Print Assumptions C73_rearrange.
(** So removing rule n from a source is possible: the texts without the nth give the rules
    without the nth. *)
Definition without {A} (n : nat) (l : list A) : list A := firstn n l ++ skipn (S n) l.
Theorem C73_remove :
  forall gp fn data rs n, no_comment_expr gp -> Parse gp fn data = Ok (mkFile rs) -> without n rs <> [] ->
    exists texts, data = List.concat texts /\ Forall2 (fun t r => Parse gp fn t = Ok (mkFile [r])) texts rs /\
      Parse gp fn (sep_by [nl] (without n texts)) = Ok (mkFile (without n rs)).
Proof.
  intros gp fn data rs n N H Ne. destruct (C73_cut gp fn data rs H) as (texts & E & F). exists texts. split; [exact E|]. split; [clear -F; induction F; constructor; auto|].
  assert (G : Forall2 (fun t r => Parse gp fn t = Ok (mkFile [r])) (without n texts) (without n rs)).
  { clear -F. unfold without. apply Forall2_app.
    - revert n. induction F as [|t r texts rs H F IH]; intros [|n]; cbn; constructor; auto.
    - generalize (S n). clear n. intros n. revert n. induction F as [|t r texts rs H F IH]; intros [|n]; cbn; auto. constructor; [auto|]. specialize (IH 0). exact IH. }
  apply C73_rearrange; [exact N| |exact G]. intros Z. rewrite Z in G. inversion G. congruence.
Qed.
Print Assumptions C73_remove.

(** The witness source of C02, cut, and put together in the other order. *)
Definition ex_first : text := str "// a comment" ++ [nl] ++ str "x:(Add(8|16) [c+1] <t> y {f(a, b)} _ ...) && a == b" ++ [nl] ++ str "  && isOk(y) => @b (Neg(8|16) y ___)" ++ [nl].
Definition ex_second : text := str "(Mul8 x) => f(x, g(_)) // the end" ++ [nl].
Example C73_example :
  ex_source = List.concat [ex_first; ex_second] /\
  Forall2 (fun t r => Parse ParseExpr [] t = Ok (mkFile [r])) [ex_first; ex_second] ex_rules /\
  Parse ParseExpr [] (sep_by [nl] [ex_second; ex_first; ex_second]) = Ok (mkFile (rev ex_rules ++ skipn 1 ex_rules)) /\
  without 0 ex_rules <> [].
Proof. split; [reflexivity|]. split; [repeat constructor; vm_compute; reflexivity|]. split; [vm_compute; reflexivity|discriminate]. Qed.
