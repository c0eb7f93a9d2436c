(** Expanded rules are well formed, and their Go expressions are those of the original. *)
From Verif Require Import Text GoAst Ast Utf8 Expand SpecPrint SpecUtf8 SpecSyntax SpecTrees SpecBack SpecExpand ExpandFacts PropertiesExpand.
From Coq Require Import Arith Lia.

Section Inst.
  Variable i : nat.
  Definition fits (groups : list nat) : Prop := Forall (fun n => i < n) groups.

  Lemma parts_word ps : ps <> [] -> Forall part_wf ps -> fits (flat_map part_groups ps) -> word (List.concat (map (part_inst i) ps)).
  Proof.
    intros Ne W F.
    assert (A : Forall word (map (part_inst i) ps)).
    { apply Forall_forall. intros t I. apply in_map_iff in I. destruct I as (p & <- & I). rewrite Forall_forall in W. specialize (W p I).
      destruct p as [c|alts|]; cbn in *; [exact W| |destruct W].
      destruct W as [_ W]. rewrite Forall_forall in W. apply W, nth_In.
      unfold fits in F. rewrite Forall_forall in F. apply F. apply in_flat_map. exists (PAlt alts). split; [exact I|left; reflexivity]. }
    destruct ps as [|p ps]; [congruence|]. cbn [map List.concat] in *. inversion A as [|? ? [N C] A']; subst. split.
    - destruct (part_inst i p); [congruence|discriminate].
    - apply Forall_app. split; [exact C|]. clear - A'. induction A' as [|? ? [_ C] A' IH]; cbn; [constructor|]. apply Forall_app. auto.
  Qed.
  Lemma op_inst_wf o : op_wf o -> fits (op_groups o) -> op_wf (op_inst i o).
  Proof. destruct o as [c|ps|]; cbn; auto. intros (N & W & _) F. apply parts_word; assumption. Qed.

  Ltac through s IH A := destruct s as [b o t ai au args el tr]; cbn in *; clear - IH A;
    induction args as [|a args IHa]; cbn in *; [exact I|]; destruct A as [A1 A2]; split; [apply IH; assumption|apply IHa; assumption].
  Lemma value_inst_lex : forall v, fits (value_groups v) -> lex_value v -> lex_value (value_inst i v).
  Proof.
    fix IH 1. intros [s|e|x|]; cbn; auto. intros F (B & O & T & A). apply Forall_app in F. destruct F as [Fo Fa].
    split; [exact B|]. split; [apply op_inst_wf; assumption|]. split; [exact T|].
    destruct s as [b o t ai au args el tr]. cbn in *. clear - IH Fa A.
    induction args as [|a args IHa]; cbn in *; [exact I|]. apply Forall_app in Fa. destruct Fa as [F1 F2]. destruct A as [A1 A2]. split; [apply IH; assumption|apply IHa; assumption].
  Qed.
  Lemma value_inst_go gp : forall v, go_value gp v -> go_value gp (value_inst i v).
  Proof. fix IH 1. intros [s|e|x|]; cbn; auto. intros (B & O & A). split; [exact B|]. split; [exact O|]. through s IH A. Qed.
  Lemma value_inst_placed : forall v, placed_value v -> placed_value (value_inst i v).
  Proof. fix IH 1. intros [s|e|x|]; cbn; auto. intros (B & O & A). split; [exact B|]. split; [exact O|]. through s IH A. Qed.
End Inst.

Lemma instances_in r r' : uniform (rule_groups r) -> In r' (instances r) ->
  exists i, r' = rule_inst i r /\ fits i (rule_groups r).
Proof.
  unfold instances. intros U I. apply in_map_iff in I. destruct I as (i & <- & I). exists i. split; [reflexivity|].
  apply in_seq in I. unfold fits. apply Forall_forall. intros n Hn.
  destruct (rule_groups r) as [|m l]; [destruct Hn|]. cbn in I. rewrite (U n m Hn (or_introl eq_refl)). lia.
Qed.

(** Any property of rules that instances inherit holds of an expanded file. *)
Lemma expand_inherits (P : rule -> Prop) f f' : ExpandAlternates f = Ok (f', None) ->
  (forall r i, fits i (rule_groups r) -> P r -> P (rule_inst i r)) -> Forall P (f_rules f) -> Forall P (f_rules f').
Proof.
  intros E H A. apply C21_expand_iff in E. destruct E as [G ->]. rewrite Forall_forall in *. intros r' I.
  apply in_flat_map in I. destruct I as (r & Ir & I). destruct (G r Ir) as [_ U]. destruct (instances_in r r' U I) as (i & -> & F). auto.
Qed.
Lemma expand_lex f f' : ExpandAlternates f = Ok (f', None) -> Forall lex_rule (f_rules f) -> Forall lex_rule (f_rules f').
Proof.
  intros E. apply (expand_inherits _ f f' E). intros r i F (M & B & R). apply Forall_app in F. destruct F as [F1 F2].
  split; [apply value_inst_lex; assumption|]. split; [exact B|apply value_inst_lex; assumption].
Qed.
Lemma expand_go gp f f' : ExpandAlternates f = Ok (f', None) -> Forall (go_rule gp) (f_rules f) -> Forall (go_rule gp) (f_rules f').
Proof.
  intros E. apply (expand_inherits _ f f' E). intros r i F (M & B & R).
  split; [apply value_inst_go; assumption|]. split; [exact B|apply value_inst_go; assumption].
Qed.
Lemma value_inst_exprs i : forall v, value_exprs (value_inst i v) = value_exprs v.
Proof.
  fix IH 1. intros [s|e|x|]; try reflexivity. destruct s as [b o t ai au args el tr]. cbn. do 2 f_equal.
  induction args as [|a args IHa]; cbn in *; [reflexivity|]. rewrite IH. f_equal. apply IHa.
Qed.
Lemma expand_writable f f' : ExpandAlternates f = Ok (f', None) -> Forall writable_rule (f_rules f) -> Forall writable_rule (f_rules f').
Proof.
  intros E. apply (expand_inherits _ f f' E). intros r i F ((M & B & R) & S). split.
  - split; [apply value_inst_placed; assumption|]. split; [exact B|apply value_inst_placed; assumption].
  - unfold rule_exprs in *. cbn [rule_inst r_match r_cond r_result]. rewrite !value_inst_exprs. exact S.
Qed.
