(** Line breaks in printed rules. *)
From Verif Require Import Text GoAst Ast SpecPrint SpecWords SpecSyntax SpecTrees SpecGo SpecBack SpecLines PrintFacts GoBack GoLex GoWords.
From Coq Require Import NArith Arith Bool Lia.
Open Scope nat_scope.
Open Scope list_scope.

Lemma breaks_app a b : breaks (a ++ b) = breaks a + breaks b.
Proof. induction a as [|c a IH]; [reflexivity|]. cbn [app breaks]. rewrite IH. lia. Qed.
Lemma breaks_none t : ~ In nl t <-> breaks t = 0.
Proof.
  induction t as [|c t IH]; [cbn; tauto|]. cbn [breaks In]. destruct (ascii_dec c nl) as [->|N].
  - split; [tauto|discriminate].
  - rewrite <- IH. split; [tauto|]. intros H [X|X]; [contradiction|tauto].
Qed.
Lemma sum_app a b : sum (a ++ b) = sum a + sum b.
Proof. induction a; cbn; lia. Qed.
Lemma sum_zero l : sum l = 0 <-> Forall (fun n => n = 0) l.
Proof. induction l as [|n l IH]; cbn; [split; auto|]. split; [intros H; constructor; [lia|apply IH; lia]|intros H; inversion H; subst; rewrite (proj2 IH); auto]. Qed.
Ltac br := repeat match goal with |- context[breaks (str ?s)] => change (breaks (str s)) with 0 end.
Definition total (l : list text) : nat := sum (map breaks l).
Lemma total_app a b : total (a ++ b) = total a + total b.
Proof. unfold total. rewrite map_app. apply sum_app. Qed.

Lemma alnum_breaks x : Forall (fun c => GoParser.is_alnum c = true) x -> breaks x = 0.
Proof. intros F. apply breaks_none. intros I. rewrite Forall_forall in F. apply F in I. discriminate. Qed.
Lemma go_name_breaks x : go_identifier x -> breaks x = 0.
Proof. intros H. apply name_iff in H. apply alnum_breaks. apply name_alnum. exact H. Qed.
Lemma op_breaks o : breaks (tok_string o) = 0 /\ breaks (op_text o) = 0.
Proof. destruct o; split; reflexivity. Qed.
Lemma go_breaks e : ordered e -> breaks (go_text e) = total (literals e).
Proof.
  induction e as [p x|p k v|l x r IHx|p o x IHx|x p o y IHx IHy|f l args el r IHf IHargs|p x IHx|x p s IHx|t|] using gexpr_ind'; cbn [ordered go_text literals]; intros O.
  - apply go_name_breaks. exact O.
  - unfold total. cbn. lia.
  - rewrite !breaks_app. br. rewrite IHx by exact O. lia.
  - rewrite breaks_app, (proj1 (op_breaks o)). apply IHx. tauto.
  - rewrite !breaks_app, total_app, (proj2 (op_breaks o)), IHx, IHy by tauto. reflexivity.
  - destruct O as (_ & Of & Oa). rewrite !breaks_app, total_app. br. rewrite IHf by exact Of. f_equal. rewrite Nat.add_0_r, Nat.add_0_l. clear IHf Of.
    revert Oa. induction IHargs as [|a args Ha F IH]; intros Oa; [reflexivity|]. cbn [fold_right] in Oa. destruct Oa as [Oa Or]. specialize (IH Or). cbn [flat_map map]. rewrite total_app, <- (Ha Oa), <- IH.
    destruct args as [|b args]; [cbn; lia|]. change (sep_by (str ", ") (go_text a :: map go_text (b :: args))) with (go_text a ++ str ", " ++ sep_by (str ", ") (map go_text (b :: args))). rewrite !breaks_app. br. reflexivity.
  - rewrite breaks_app. br. apply IHx. tauto.
  - rewrite !breaks_app. br. rewrite IHx, (go_name_breaks s) by tauto. lia.
  - contradiction.
  - contradiction.
Qed.

Lemma word_breaks c : Forall word_char c -> breaks c = 0.
Proof. intros F. apply breaks_none. intros I. rewrite Forall_forall in F. apply F in I. destruct I as [I|[I|[I|I]]]; discriminate. Qed.
Lemma ident_breaks x : ident x -> breaks x = 0.
Proof. intros (c & t & -> & L & F). apply word_breaks. constructor; [right; left; exact L|exact F]. Qed.
Lemma sep_breaks (s : string) l : breaks (str s) = 0 -> Forall (fun t => breaks t = 0) l -> breaks (sep_by (str s) l) = 0.
Proof.
  intros S. induction 1 as [|t l H F IH]; [reflexivity|]. destruct l as [|u l]; [exact H|]. change (sep_by (str s) (t :: u :: l)) with (t ++ str s ++ sep_by (str s) (u :: l)). rewrite !breaks_app. lia.
Qed.
Lemma opcode_breaks o : op_wf o -> breaks (opcode_text o) = 0.
Proof.
  destruct o as [c|ps|]; cbn [op_wf opcode_text]; [intros [_ F]; apply word_breaks; exact F| |contradiction]. intros (_ & F & _). induction F as [|p ps H F IH]; [reflexivity|]. cbn [map List.concat]. rewrite breaks_app, IH, Nat.add_0_r.
  destruct p as [c|alts|]; cbn [part_wf] in H; [apply word_breaks; apply H| |contradiction]. destruct H as [L H]. unfold part_text. destruct alts as [|a l]; [reflexivity|].
  rewrite !breaks_app. br. rewrite sep_breaks; [reflexivity|reflexivity|]. eapply Forall_impl; [|exact H]. intros t [_ W]. apply word_breaks. exact W.
Qed.

Definition value_free (v : value) : nat := total (value_types v) + total (flat_map literals (value_exprs v)).
Lemma value_breaks v : lex_value v -> Forall ordered (value_exprs v) -> breaks (value_text v) = value_free v.
Proof.
  unfold value_free. induction v as [s IH|e|x|] using value_ind'; cbn [lex_value value_text value_types value_exprs]; intros L O.
  - destruct L as (B & Op & _ & A). rewrite !Forall_app in O. destruct O as (Oi & Ox & Oa). rewrite !breaks_app. br.
    assert (Hb : breaks (if_given (s_binding s) (fun b => b ++ str ":")) = 0) by (destruct B as [->|B]; [reflexivity|]; pose proof (ident_breaks _ B) as Z; destruct (s_binding s); [reflexivity|]; unfold if_given; rewrite breaks_app, Z; reflexivity).
    assert (Ht : breaks (if_given (s_type s) (fun t => str " <" ++ t ++ str ">")) = breaks (s_type s)) by (destruct (s_type s); [reflexivity|]; unfold if_given; rewrite !breaks_app; br; lia).
    assert (Hi : breaks (if_set (s_auxint s) (fun e => str " [" ++ go_text e ++ str "]")) = total (flat_map literals (given (s_auxint s)))).
    { destruct (s_auxint s) as [e|]; [|reflexivity]. cbn [if_set given flat_map]. inversion Oi; subst. rewrite !breaks_app, go_breaks, app_nil_r by assumption. br. lia. }
    assert (Hx : breaks (if_set (s_aux s) (fun e => str " {" ++ go_text e ++ str "}")) = total (flat_map literals (given (s_aux s)))).
    { destruct (s_aux s) as [e|]; [|reflexivity]. cbn [if_set given flat_map]. inversion Ox; subst. rewrite !breaks_app, go_breaks, app_nil_r by assumption. br. lia. }
    assert (Ha : breaks (List.concat (map (fun a => str " " ++ value_text a) (s_args s))) = total (flat_map value_types (s_args s)) + total (flat_map literals (flat_map value_exprs (s_args s)))).
    { clear -IH A Oa. induction IH as [|a l Ha _ IHl]; [reflexivity|]. cbn [fold_right] in A. destruct A as [La A]. cbn [flat_map] in Oa. rewrite Forall_app in Oa. destruct Oa as [O1 O2].
      cbn [map List.concat flat_map]. rewrite !breaks_app, !flat_map_app, !total_app, (Ha La O1), (IHl A O2). br. lia. }
    rewrite Hb, (opcode_breaks _ Op), Ht, Hi, Hx, Ha, !flat_map_app, !total_app. change (total (s_type s :: flat_map value_types (s_args s))) with (breaks (s_type s) + total (flat_map value_types (s_args s))).
    destruct (s_ellipsis s), (s_trailing s); cbn [when]; br; cbn [breaks]; lia.
  - inversion O; subst. rewrite go_breaks by assumption. cbn [flat_map]. rewrite app_nil_r. reflexivity.
  - destruct L as [L| ->]; [|reflexivity]. rewrite ident_breaks by exact L. reflexivity.
  - contradiction.
Qed.
Lemma rule_breaks r : lex_rule r -> Forall ordered (rule_exprs r) -> breaks (rule_text r) = sum (map breaks (free_parts r)).
Proof.
  intros (Lm & _ & Lr) O. unfold rule_exprs in O. rewrite !Forall_app in O. destruct O as (Om & Oc & Or). change (sum (map breaks (free_parts r))) with (total (free_parts r)).
  unfold free_parts, rule_exprs, rule_text. rewrite !breaks_app, !flat_map_app, !total_app. rewrite (value_breaks _ Lm Om), (value_breaks _ Lr Or). unfold value_free.
  assert (Hc : breaks (if_set (r_cond r) (fun e => str " && " ++ go_text e)) = total (flat_map literals (given (r_cond r)))).
  { destruct (r_cond r) as [e|]; [|reflexivity]. cbn [if_set given flat_map]. inversion Oc; subst. rewrite breaks_app, go_breaks, app_nil_r by assumption. br. lia. }
  assert (Hb : breaks (if_given (r_block r) (fun b => str "@" ++ b ++ str " ")) = total [r_block r]).
  { unfold total. cbn [map sum]. destruct (r_block r); [reflexivity|]. unfold if_given. rewrite !breaks_app. br. lia. }
  rewrite Hc, Hb. br. lia.
Qed.
Lemma file_breaks rs : Forall lex_rule rs -> Forall (fun r => Forall ordered (rule_exprs r)) rs ->
  breaks (file_text (mkFile rs)) = List.length rs + sum (map (fun r => sum (map breaks (free_parts r))) rs).
Proof.
  unfold file_text. cbn [f_rules]. induction rs as [|r rs IH]; intros L O; [reflexivity|]. inversion L; subst. inversion O; subst. cbn [map List.concat List.length sum].
  rewrite !breaks_app, rule_breaks, IH by assumption. change (breaks [nl]) with 1. lia.
Qed.
