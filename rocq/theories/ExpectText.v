(** The list of what was expected, and what its items mean (for C65). *)
From Verif Require Import Text GoAst Ast Utf8 GoExpr Peg SpecPeg Grammar Parse PegPoints PegSem ErrFacts SynLex SpecPrint SpecExpect ParseFacts ExpectFacts.
From Coq Require Import NArith Arith Bool Lia.
Open Scope nat_scope.
Open Scope list_scope.

(** ** Sorting *)
Lemma byte_nat c : byte_val c = N.of_nat (nat_of_ascii c).
Proof. unfold byte_val, nat_of_ascii. rewrite N2Nat.id. reflexivity. Qed.
Lemma leb_before a : forall b, text_leb a b = true -> a <> b -> before a b.
Proof.
  induction a as [|x a IH]; intros [|y b] L N; cbn in L; try congruence; [constructor|].
  destruct (N.ltb_spec (byte_val x) (byte_val y)) as [H|H]; [apply bf_less; rewrite !byte_nat in H; lia|].
  destruct (N.ltb_spec (byte_val y) (byte_val x)) as [H'|H']; [discriminate|].
  assert (x = y) by (apply byte_val_inj; lia). subst y. apply bf_same. apply IH; congruence.
Qed.
Lemma leb_total a : forall b, text_leb a b = false -> text_leb b a = true.
Proof.
  induction a as [|x a IH]; intros [|y b] L; cbn in *; try congruence.
  destruct (N.ltb_spec (byte_val x) (byte_val y)); [discriminate|].
  destruct (N.ltb_spec (byte_val y) (byte_val x)); [reflexivity|].
  apply IH. exact L.
Qed.
Inductive ordered : list text -> Prop :=
| ord_nil : ordered []
| ord_one x : ordered [x]
| ord_more x y l : text_leb x y = true -> ordered (y :: l) -> ordered (x :: y :: l).
Lemma insert_in x y l : In y (insert_text x l) <-> y = x \/ In y l.
Proof.
  induction l as [|z l IH]; cbn; [intuition congruence|]. destruct (text_leb x z); cbn; [intuition congruence|]. rewrite IH. intuition congruence.
Qed.
Lemma insert_ordered x l : ordered l -> ordered (insert_text x l).
Proof.
  induction 1 as [|y|y z l L O IH]; cbn; [constructor| |].
  - destruct (text_leb x y) eqn:E; constructor; try constructor; [exact E|apply leb_total; exact E].
  - cbn in IH. destruct (text_leb x y) eqn:E; [constructor; [exact E|constructor; assumption]|].
    destruct (text_leb x z) eqn:E'; [constructor; [apply leb_total; exact E|exact IH]|]. constructor; [exact L|exact IH].
Qed.
Lemma insert_nodup x l : ~ In x l -> NoDup l -> NoDup (insert_text x l).
Proof.
  induction l as [|y l IH]; cbn; intros H N; [constructor; auto; constructor|]. destruct (text_leb x y); [constructor; [exact H|exact N]|].
  inversion N; subst. constructor; [|apply IH; tauto]. rewrite insert_in. intros [->|X]; [tauto|auto].
Qed.
Lemma sort_in y l : In y (sort_texts l) <-> In y l.
Proof. unfold sort_texts. induction l as [|x l IH]; cbn; [tauto|]. rewrite insert_in, IH. intuition congruence. Qed.
Lemma sort_ordered l : ordered (sort_texts l).
Proof. unfold sort_texts. induction l as [|x l IH]; cbn; [constructor|]. apply insert_ordered, IH. Qed.
Lemma sort_nodup l : NoDup l -> NoDup (sort_texts l).
Proof. unfold sort_texts. induction 1 as [|x l H N IH]; cbn; [constructor|]. apply insert_nodup; [|exact IH]. pose proof (sort_in x l) as S. unfold sort_texts in S. tauto. Qed.
Lemma ordered_ascending l : ordered l -> NoDup l -> ascending l.
Proof.
  induction 1 as [|x|x y l L O IH]; intros N; constructor; inversion N; subst; [|apply IH; assumption].
  apply leb_before; [exact L|]. intros ->. apply H1. left. reflexivity.
Qed.

Lemma dedupe_in l : forall seen x, In x (dedupe seen l) <-> In x l /\ ~ In x seen.
Proof.
  induction l as [|y l IH]; intros seen x; cbn; [tauto|]. destruct (existsb (text_eqb y) seen) eqn:E.
  - rewrite IH. apply existsb_exists in E. destruct E as (z & I & E). apply text_eqb_eq in E. subst z. split; [tauto|]. intros [[->|H] N]; tauto.
  - assert (N : ~ In y seen). { intros I. assert (existsb (text_eqb y) seen = true) by (apply existsb_exists; exists y; split; [exact I|apply text_eqb_refl]). congruence. }
    cbn. rewrite IH. cbn. destruct (text_eq_dec x y) as [->|D]; intuition congruence.
Qed.
Lemma dedupe_nodup l : forall seen, NoDup (dedupe seen l).
Proof.
  induction l as [|y l IH]; intros seen; cbn; [constructor|]. destruct (existsb (text_eqb y) seen); [apply IH|]. constructor; [|apply IH].
  rewrite dedupe_in. cbn. tauto.
Qed.

Lemma expected_items fe : items (fun w => In w fe) (expected_list fe).
Proof.
  unfold expected_list, items. exists (sort_texts (filter (fun w => negb (text_eqb (str "!.") w)) (dedupe [] fe))). split; [apply ordered_ascending; [apply sort_ordered|]|].
  - apply sort_nodup, NoDup_filter, dedupe_nodup.
  - split.
    + intros w. rewrite sort_in, filter_In, dedupe_in, negb_true_iff. cbn [In].
      destruct (text_eqb_spec (str "!.") w) as [E|E]; split; intros [H H'].
      * discriminate.
      * exfalso. apply H'. symmetry. exact E.
      * split; [apply H|]. intros ->. apply E. reflexivity.
      * split; [|reflexivity]. split; [exact H|intros []].
    + destruct (existsb (text_eqb (str "!.")) (dedupe [] fe)) eqn:E.
      * left. split; [|reflexivity]. apply existsb_exists in E. destruct E as (z & I & X). apply text_eqb_eq in X. subst z. apply dedupe_in in I. tauto.
      * right. split; [|apply app_nil_r]. intros I. assert (existsb (text_eqb (str "!.")) (dedupe [] fe) = true); [|congruence].
        apply existsb_exists. eexists. split; [|apply text_eqb_refl]. apply dedupe_in. split; [exact I|intros []].
Qed.
Lemma expected_some fe : fe <> [] -> expected_list fe <> [].
Proof.
  intros N. destruct (expected_items fe) as (front & _ & F & E). destruct fe as [|x fe]; [congruence|].
  destruct E as [(_ & ->)|(B & ->)]; [destruct front; discriminate|]. intros ->. apply (F x). split; [left; reflexivity|]. intros ->. apply B. left. reflexivity.
Qed.
Lemma joined l : l <> [] -> enumerated l (listJoin l (str ", ") (str "or")).
Proof.
  intros N. destruct l as [|x [|y l]]; [congruence|apply en_one|].
  set (m := x :: y :: l) in *. change (listJoin m (str ", ") (str "or")) with (join_with (str ", ") (removelast m) ++ str " " ++ str "or" ++ str " " ++ last m []).
  rewrite (app_removelast_last [] N) at 1. rewrite join_sep.
  replace (str " " ++ str "or" ++ str " " ++ last m []) with (str " or " ++ last m []) by reflexivity.
  apply en_more; [discriminate|reflexivity].
Qed.

(** ** The items *)
Definition bytes : list ascii := map ascii_of_nat (seq 0 256).
Lemma in_bytes c : In c bytes.
Proof. apply in_map_iff. exists (nat_of_ascii c). split; [apply ascii_nat_embedding|]. apply in_seq. pose proof (nat_ascii_bounded c). lia. Qed.

Definition spell (c : ascii) : option text :=
  if ascii_dec c nl then Some (str "\n") else if ascii_dec c "\"%char then None else if ascii_dec c dquote then None else Some [c].
Lemma spell_ok c s : spell c = Some s -> spelled_char c s.
Proof.
  unfold spell. destruct (ascii_dec c nl) as [->|]; [intros E; injection E as <-; constructor|]. destruct (ascii_dec c "\"%char); [discriminate|].
  destruct (ascii_dec c dquote); [discriminate|]. intros E. injection E as <-. constructor; assumption.
Qed.
Fixpoint spells (l : text) : option (list text) :=
  match l with
  | [] => Some []
  | c :: l => match spell c, spells l with Some s, Some ss => Some (s :: ss) | _, _ => None end
  end.
Lemma spells_ok l : forall ss, spells l = Some ss -> Forall2 spelled_char l ss.
Proof.
  induction l as [|c l IH]; intros ss E; cbn in E; [injection E as <-; constructor|]. destruct (spell c) eqn:X; [|discriminate]. destruct (spells l); [|discriminate].
  injection E as <-. constructor; [apply spell_ok; exact X|apply IH; reflexivity].
Qed.

Definition listed (cs : list N) (rs : list (N * N)) (x : N) : bool := existsb (N.eqb x) cs || existsb (fun '(lo, hi) => ((lo <=? x) && (x <=? hi))%N) rs.
Definition body_ok (cs : list N) (rs : list (N * N)) (body : text) : bool :=
  forallb (fun x => x <? 128)%N cs && forallb (fun p => snd p <? 128)%N rs &&
  forallb (fun c => Bool.eqb (in_body body c) ((byte_val c <? 128)%N && listed cs rs (byte_val c))) bytes.
Lemma body_first cs rs body c t : body_ok cs rs body = true -> listed cs rs (first_rune (c :: t)) = in_body body c.
Proof.
  unfold body_ok. rewrite !andb_true_iff, !forallb_forall. intros [[C R] B]. specialize (B c (in_bytes c)). apply eqb_prop in B. rewrite B.
  unfold first_rune. destruct (N.ltb_spec (byte_val c) 128) as [L|L]; [rewrite decode_ascii by exact L; reflexivity|]. cbn [andb].
  destruct (decode_rune (c :: t)) as [r n] eqn:D. assert (128 <= r)%N by (apply (decode_big c t r n D); lia). cbn [fst].
  unfold listed. apply orb_false_iff. split; apply not_true_iff_false; intros X; apply existsb_exists in X.
  - destruct X as (z & I & X). apply N.eqb_eq in X. subst z. apply C, N.ltb_lt in I. lia.
  - destruct X as ([lo hi] & I & X). apply andb_true_iff in X. destruct X as [_ X]. apply N.leb_le in X. apply R, N.ltb_lt in I. cbn in I. lia.
Qed.

Definition honest_b {A} (e : pexpr A) : bool :=
  match e with
  | PLit rs want =>
      let l := map ascii_of_N rs in
      match spells l, l with
      | Some ss, _ :: _ => text_eqb want ([dquote] ++ List.concat ss ++ [dquote]) && forallb (fun r => r <? 128)%N rs
      | _, _ => false
      end
  | PClass name cs rs false =>
      let body := removelast (skipn 1 name) in
      text_eqb name (str "[" ++ body ++ str "]") && body_ok cs rs body && match body with "^"%char :: _ => false | _ => true end
  | PClass name cs rs true => let body := removelast (skipn 2 name) in text_eqb name (str "[^" ++ body ++ str "]") && body_ok cs rs body
  | PAny => true
  | _ => false
  end.
Lemma lit_exists l : forall t, lit_match (map byte_val l) t <> None <-> exists r, t = l ++ r.
Proof.
  intros t. destruct (lit_match (map byte_val l) t) as [r|] eqn:E.
  - apply lit_match_some in E. split; [intros _; exists r; exact E|discriminate].
  - split; [congruence|]. intros [r ->]. rewrite (proj2 (lit_match_some l (l ++ r) r) eq_refl) in E. discriminate.
Qed.
Lemma honest_says {A} (e : pexpr A) : honest_b e = true -> exists P, says (display e) P /\ forall t, matches e t <> None <-> P t.
Proof.
  destruct e as [| | | | | | | | |rs want|name cs rs inv|]; try discriminate.
  - cbn [honest_b]. destruct (spells (map ascii_of_N rs)) as [ss|] eqn:E; [|discriminate]. destruct (map ascii_of_N rs) as [|c l] eqn:L; [discriminate|].
    rewrite andb_true_iff, text_eqb_eq, forallb_forall. intros [-> R]. eexists. split; [apply (sy_literal ss (c :: l)); [apply spells_ok; exact E|discriminate]|].
    intros t. cbn [matches]. replace rs with (map byte_val (c :: l)); [apply lit_exists|].
    rewrite <- L, map_map, <- (map_id rs) at 1. rewrite map_id. rewrite <- (map_id rs) at 2. apply map_ext_in. intros x I. apply R, N.ltb_lt in I. apply N_ascii_embedding. lia.
  - cbn [honest_b]. destruct inv.
    + generalize (removelast (skipn 2 name)) as body. intros body. rewrite andb_true_iff, text_eqb_eq. intros [E B].
      eexists. split; [cbn [display]; rewrite E; apply sy_class_not|]. intros t. cbn [matches]. destruct t as [|c t].
      * split; [congruence|]. intros (c & r & X & _). discriminate.
      * unfold in_class. fold (listed cs rs (first_rune (c :: t))). rewrite (body_first cs rs body c t B). destruct (in_body body c) eqn:I; cbn.
        { split; [congruence|]. intros (c' & r & X & Y). injection X as <- <-. congruence. } { split; [eauto|discriminate]. }
    + generalize (removelast (skipn 1 name)) as body. intros body. rewrite !andb_true_iff, text_eqb_eq. intros [[E B] H].
      eexists. split; [cbn [display]; rewrite E; apply sy_class|].
      * intros X. destruct body as [|b body']; [discriminate|]. cbn in X. injection X as ->. discriminate.
      * intros t. cbn [matches]. destruct t as [|c t].
        { split; [congruence|]. intros (c & r & X & _). discriminate. }
        unfold in_class. fold (listed cs rs (first_rune (c :: t))). rewrite (body_first cs rs body c t B). destruct (in_body body c) eqn:I; cbn.
        { split; [eauto|discriminate]. } { split; [congruence|]. intros (c' & r & X & Y). injection X as <- <-. congruence. }
  - intros _. eexists. split; [apply sy_any|]. intros t. cbn. destruct t; split; intros H; try congruence; [contradiction H; reflexivity..].
Qed.
Lemma grammar_honest n b : the_grammar n = Some b -> Forall (fun e => honest_b e = true) (terms b).
Proof.
  intros G. apply Forall_forall. assert (H : forallb honest_b (terms b) = true); [|rewrite forallb_forall in H; exact H].
  revert n b G. apply (by_rules (fun _ b => forallb honest_b (terms b))). vm_compute. reflexivity.
Qed.

(** ** Items are not ambiguous *)
Lemma spelled_fun c s c' s' x y : spelled_char c s -> spelled_char c' s' -> s ++ x = s' ++ y -> c = c' /\ x = y.
Proof.
  intros [d A B C|] [d' A' B' C'|] E; cbn in E; injection E; intros; subst; try congruence; auto.
Qed.
Lemma spelled_not_quote c s x : spelled_char c s -> s ++ x <> [dquote].
Proof. intros [d A B C|] E; cbn in E; injection E; intros; subst; try congruence; discriminate. Qed.
Lemma literal_fun l ss : Forall2 spelled_char l ss -> forall l' ss', Forall2 spelled_char l' ss' ->
  List.concat ss ++ [dquote] = List.concat ss' ++ [dquote] -> l = l'.
Proof.
  induction 1 as [|c s l ss C F IH]; intros l' ss' F' E; destruct F' as [|c' s' l' ss' C' F']; cbn [List.concat app] in E; rewrite <- ?app_assoc in E; auto.
  - symmetry in E. exfalso. exact (spelled_not_quote _ _ _ C' E).
  - exfalso. exact (spelled_not_quote _ _ _ C E).
  - destruct (spelled_fun _ _ _ _ _ _ C C' E) as [-> E']. f_equal. eapply IH; eassumption.
Qed.
Lemma says_one w P : says w P -> forall P', says w P' -> forall t, P t <-> P' t.
Proof.
  induction 1 as [ss l F N|body Hb|body| |w P S IH|]; intros P' S' t; inversion S' as [ss' l' F' N' E|body' Hb' E|body' E|E|w' P'' S'' E|E]; subst; try reflexivity; try discriminate.
  - rewrite (literal_fun _ _ F' _ _ F E). reflexivity.
  - apply app_inv_tail in E. subst. reflexivity.
  - destruct body as [|b body]; [destruct body'; discriminate|]. cbn in E. injection E as E1 E2. subst b. cbn in Hb. congruence.
  - destruct body' as [|b body']; [destruct body; discriminate|]. cbn in E. injection E as E1 E2. subst b. cbn in Hb'. congruence.
  - apply app_inv_tail in E. subst. reflexivity.
  - rewrite (IH _ S'' t). reflexivity.
Qed.
