(** strings.TrimSpace meets its specification. *)
From Verif Require Import Text GoAst Ast Utf8 SpecUtf8 SpecTrim SpecSyntax.
From Coq Require Import NArith Arith Bool Lia.

(** ** Proofs *)
Lemma encodings : space_encodings = map encode space_points.
Proof. vm_compute. reflexivity. Qed.
Lemma space_char_iff k : space_char k <-> In k space_encodings.
Proof. rewrite encodings, in_map_iff. split; [intros (n & I & ->); exists n; auto|intros (n & <- & I); exists n; auto]. Qed.

Lemma has_prefix_iff e : forall s, has_prefix e s = true <-> exists r, s = e ++ r.
Proof.
  induction e as [|c e IH]; intros s; [split; [exists s; reflexivity|reflexivity]|]. destruct s as [|d s]; [split; [discriminate|intros [r E]; discriminate]|].
  cbn. destruct (ascii_dec c d) as [->|N].
  - rewrite IH. split; [intros [r ->]; exists r; reflexivity|intros [r E]; inversion E; exists r; reflexivity].
  - split; [discriminate|intros [r E]; inversion E; congruence].
Qed.

Section Front.
  Variable encs : list text.
  Hypothesis nonempty : forall e, In e encs -> e <> [].
  Inductive many : text -> Prop := many_nil : many [] | many_cons e t : In e encs -> many t -> many (e ++ t).
  Lemma front_spec fuel : forall s, (List.length s <= fuel)%nat ->
    exists a, s = a ++ trim_front fuel encs s /\ many a /\ (forall e r, In e encs -> trim_front fuel encs s <> e ++ r).
  Proof.
    induction fuel as [|n IH]; intros s L; cbn [trim_front].
    - destruct s; [|cbn in L; lia]. exists []. split; [reflexivity|]. split; [constructor|]. intros e r I E. apply (nonempty e I). destruct e; [reflexivity|discriminate].
    - destruct (find (fun e => has_prefix e s) encs) as [e|] eqn:F.
      + apply find_some in F. destruct F as [I P]. apply has_prefix_iff in P. destruct P as [r ->].
        rewrite skipn_app, skipn_all, Nat.sub_diag. cbn [app skipn]. destruct (IH r) as (a & E & M & N).
        { rewrite app_length in L. pose proof (nonempty e I). destruct e; [congruence|]. cbn in L. lia. }
        exists (e ++ a). split; [rewrite <- app_assoc, <- E; reflexivity|]. split; [constructor; assumption|exact N].
      + exists []. split; [reflexivity|]. split; [constructor|]. intros e r I ->.
        apply (find_none _ _ F) in I. rewrite <- not_true_iff_false in I. apply I. apply has_prefix_iff. exists r. reflexivity.
  Qed.
  Lemma many_app a b : many a -> many b -> many (a ++ b).
  Proof. induction 1; intros B; [exact B|]. rewrite <- app_assoc. constructor; auto. Qed.
End Front.

Lemma enc_nonempty e : In e space_encodings -> e <> [].
Proof. intros I ->. vm_compute in I. repeat (destruct I as [I|I]; [discriminate|]). destruct I. Qed.
Lemma many_spaces a : many space_encodings a <-> spaces a.
Proof. split; induction 1; constructor; auto; apply space_char_iff; assumption. Qed.
Lemma many_rev a : many (map (@rev ascii) space_encodings) a -> spaces (rev a).
Proof.
  induction 1 as [|e t I M IH]; [constructor|]. rewrite rev_app_distr. apply in_map_iff in I. destruct I as (k & <- & I). rewrite rev_involutive.
  apply many_spaces. apply many_app; [apply many_spaces; exact IH|]. rewrite <- (app_nil_r k). constructor; [exact I|constructor].
Qed.

Lemma trim_space_trimmed s : trimmed s (trim_space s).
Proof.
  unfold trim_space. destruct (front_spec space_encodings enc_nonempty (List.length s) s (le_n _)) as (a & E & M & N).
  set (u := trim_front (List.length s) space_encodings s) in *.
  assert (Ne : forall e, In e (map (@rev ascii) space_encodings) -> e <> []).
  { intros e I. apply in_map_iff in I. destruct I as (k & <- & I). intros X. apply (enc_nonempty k I). apply (f_equal (@rev ascii)) in X. rewrite rev_involutive in X. exact X. }
  destruct (front_spec (map (@rev ascii) space_encodings) Ne (List.length u) (rev u)) as (b & E' & M' & N'); [rewrite rev_length; reflexivity|].
  set (v := trim_front (List.length u) (map (@rev ascii) space_encodings) (rev u)) in *.
  assert (Eu : u = rev v ++ rev b) by (rewrite <- rev_app_distr, <- E', rev_involutive; reflexivity).
  exists a, (rev b). split; [rewrite <- Eu; exact E|]. split; [apply many_spaces; exact M|]. split; [apply many_rev; exact M'|]. split.
  - intros k r K X. apply space_char_iff in K. apply (N k (r ++ rev b) K). rewrite Eu, X, <- app_assoc. reflexivity.
  - intros k r K X. apply space_char_iff in K. apply (N' (rev k) (rev r)); [apply in_map; exact K|].
    rewrite <- (rev_involutive v), X, rev_app_distr. reflexivity.
Qed.

(** Encodings start with a lead byte and go on with tail bytes. *)
Definition is_tail (c : ascii) : Prop := (128 <= byte_val c < 192)%N.
Lemma enc_shape e : In e space_encodings -> exists c t, e = c :: t /\ ~ is_tail c /\ Forall is_tail t.
Proof.
  assert (F : Forall (fun e => exists c t, e = c :: t /\ ~ is_tail c /\ Forall is_tail t) space_encodings).
  { unfold space_encodings. cbn. repeat constructor; (eexists _, _; split; [reflexivity|]; split; [unfold is_tail; cbn; lia|repeat constructor; cbn; lia]). }
  intros I. rewrite Forall_forall in F. apply F. exact I.
Qed.
Lemma spaces_first b : spaces b -> forall c t, b = c :: t -> ~ is_tail c.
Proof.
  intros S c t E. inversion S as [|k t' K S']; subst; [discriminate|]. apply space_char_iff in K. destruct (enc_shape k K) as (d & u & -> & N & _).
  inversion H; subst. exact N.
Qed.
(** A text that does not start with white space still does not when white space is added. *)
Lemma no_start t b : (forall k r, space_char k -> t <> k ++ r) -> t <> [] -> spaces b -> forall k r, space_char k -> t ++ b <> k ++ r.
Proof.
  intros N Ne S k r K E. pose proof K as K'. apply space_char_iff in K'. destruct (enc_shape k K') as (c & u & -> & _ & T).
  destruct t as [|d t]; [congruence|]. cbn in E. inversion E as [[X Y]]. subst d. clear E Ne.
  assert (Q : exists z, t = u ++ z).
  { clear -Y S T. revert t Y. induction T as [|x u Tx T IH]; intros t Y; [exists t; reflexivity|]. destruct t as [|y t].
    - exfalso. apply (spaces_first b S x (u ++ r)); [exact Y|exact Tx].
    - cbn in Y. inversion Y; subst. destruct (IH t ltac:(assumption)) as [z ->]. exists z. reflexivity. }
  destruct Q as [z ->]. apply (N (c :: u) z K). reflexivity.
Qed.

Definition prefix_free (encs : list text) : bool :=
  forallb (fun e => forallb (fun e' => negb (has_prefix e e') || text_eqb e e') encs) encs.
Lemma front_unique encs : prefix_free encs = true -> forall a, many encs a -> forall a' r r', many encs a' -> a ++ r = a' ++ r' ->
  (forall k x, In k encs -> r <> k ++ x) -> (forall k x, In k encs -> r' <> k ++ x) -> a = a'.
Proof.
  intros PF. assert (Same : forall e e' r r', In e encs -> In e' encs -> e ++ r = e' ++ r' -> e = e').
  { assert (P : forall e e' l, In e encs -> In e' encs -> e' = e ++ l -> e = e').
    { intros e e' l I I' E. unfold prefix_free in PF. rewrite forallb_forall in PF. specialize (PF e I). rewrite forallb_forall in PF. specialize (PF e' I').
      apply orb_true_iff in PF. destruct PF as [H|H]; [|apply text_eqb_eq; exact H]. apply negb_true_iff in H. rewrite <- not_true_iff_false in H.
      exfalso. apply H. apply has_prefix_iff. exists l. exact E. }
    intros e e' r r' I I' E. apply app_eq_app in E. destruct E as (l & [[E _]|[E _]]); [symmetry|]; eapply P; eauto. }
  induction 1 as [|k t K S IH]; intros a' r r' S' E N N'.
  - destruct S' as [|k t K S]; [reflexivity|]. exfalso. apply (N k (t ++ r') K). rewrite app_assoc. exact E.
  - destruct S' as [|k' t' K' S']; [exfalso; apply (N' k (t ++ r) K); rewrite app_assoc; symmetry; exact E|].
    rewrite <- !app_assoc in E. pose proof (Same k k' _ _ K K' E) as ->. apply app_inv_head in E. f_equal. eapply IH; eauto.
Qed.
Lemma spaces_many_rev b : spaces b -> many (map (@rev ascii) space_encodings) (rev b).
Proof.
  induction 1 as [|k t K S IH]; [constructor|]. rewrite rev_app_distr. apply many_app; [exact IH|]. rewrite <- (app_nil_r (rev k)).
  constructor; [apply in_map; apply space_char_iff; exact K|constructor].
Qed.
Lemma spaces_app a b : spaces a -> spaces b -> spaces (a ++ b).
Proof. rewrite <- !many_spaces. apply many_app. Qed.

Lemma trimmed_unique s t t' : trimmed s t -> trimmed s t' -> t = t'.
Proof.
  intros (a & b & E & A & B & P & Q) (a' & b' & E' & A' & B' & P' & Q'). rewrite E in E'.
  assert (Z : forall a b a' t' b', spaces a -> spaces b -> spaces a' -> spaces b' -> (forall k r, space_char k -> t' <> k ++ r) ->
    a ++ [] ++ b = a' ++ t' ++ b' -> t' = []).
  { clear. intros a b a' t' b' A B A' B' P' E. destruct t' as [|c t]; [reflexivity|exfalso]. cbn [app] in E.
    assert (X : a ++ b = a').
    { apply (front_unique space_encodings eq_refl (a ++ b)) with (r := []) (r' := (c :: t) ++ b').
      - apply many_spaces. apply spaces_app; assumption.
      - apply many_spaces. exact A'.
      - rewrite app_nil_r. exact E.
      - intros k x K X. apply (enc_nonempty k K). destruct k; [reflexivity|discriminate].
      - intros k x K. apply no_start; [exact P'|discriminate|exact B'|apply space_char_iff; exact K]. }
    rewrite X in E. rewrite <- (app_nil_r a') in E at 1. apply app_inv_head in E. discriminate. }
  destruct t as [|c t]; [symmetry; exact (Z a b a' t' b' A B A' B' P' E')|].
  destruct t' as [|c' t']; [exact (Z a' b' a (c :: t) b A' B' A B P (eq_sym E'))|].
  assert (a = a') as <-.
  { apply (front_unique space_encodings eq_refl a) with (r := (c :: t) ++ b) (r' := (c' :: t') ++ b').
    - apply many_spaces. exact A.
    - apply many_spaces. exact A'.
    - exact E'.
    - intros k x K. apply no_start; [exact P|discriminate|exact B|apply space_char_iff; exact K].
    - intros k x K. apply no_start; [exact P'|discriminate|exact B'|apply space_char_iff; exact K]. }
  apply app_inv_head in E'.
  assert (R : rev b = rev b').
  { apply (front_unique (map (@rev ascii) space_encodings) eq_refl (rev b)) with (r := rev (c :: t)) (r' := rev (c' :: t')).
    - apply spaces_many_rev. exact B.
    - apply spaces_many_rev. exact B'.
    - rewrite <- !rev_app_distr, E'. reflexivity.
    - intros k x K X. apply in_map_iff in K. destruct K as (k' & <- & K). apply (Q k' (rev x)); [apply space_char_iff; exact K|].
      rewrite <- (rev_involutive (c :: t)), X, rev_app_distr, rev_involutive. reflexivity.
    - intros k x K X. apply in_map_iff in K. destruct K as (k' & <- & K). apply (Q' k' (rev x)); [apply space_char_iff; exact K|].
      rewrite <- (rev_involutive (c' :: t')), X, rev_app_distr, rev_involutive. reflexivity. }
  apply (f_equal (@rev ascii)) in R. rewrite !rev_involutive in R. subst b'. apply app_inv_tail in E'. exact E'.
Qed.
Lemma trim_space_spec s t : trim_space s = t <-> trimmed s t.
Proof. split; [intros <-; apply trim_space_trimmed|intros T; exact (trimmed_unique _ _ _ (trim_space_trimmed s) T)]. Qed.

(** Text that starts with "//" keeps doing so. *)
Lemma trim_comment c : exists c', trim_space (str "//" ++ c) = str "//" ++ c' /\ exists b, c = c' ++ b.
Proof.
  destruct (trim_space_trimmed (str "//" ++ c)) as (a & b & E & A & B & P & Q).
  assert (a = []) as ->.
  { destruct A as [|k t K A]; [reflexivity|]. exfalso. apply space_char_iff in K. rewrite <- !app_assoc in E. cbn in K.
    repeat (destruct K as [<- |K]; [discriminate|]). destruct K. }
  cbn [app] in E. set (t := trim_space _) in *.
  assert (Sl : forall x, b = "/"%char :: x -> False).
  { intros x ->. inversion B as [|k u K B' X]. apply space_char_iff in K. cbn in K. repeat (destruct K as [<- |K]; [discriminate|]). destruct K. }
  destruct t as [|d [|d' t]].
  - exfalso. eapply (Sl ("/"%char :: c)). symmetry. exact E.
  - exfalso. inversion E; subst. eapply (Sl c). auto.
  - inversion E; subst. exists t. split; [reflexivity|]. exists b. reflexivity.
Qed.

(** What a condition is read from. *)
Lemma reads_cond_iff gp c e : reads_cond gp c e <-> reads gp (trim_space (newlines_to_spaces c)) e.
Proof.
  unfold reads_cond. change (one_line c) with (newlines_to_spaces c). split.
  - intros (t & T & R). apply trim_space_spec in T. subst t. exact R.
  - intros R. eexists. split; [apply trim_space_trimmed|exact R].
Qed.
