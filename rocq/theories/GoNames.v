(** Names of Go: the check of the reference scanner, and the characters of SpecWords.v. *)
From Verif Require Import Text Utf8 Unicode SpecUtf8 GoParser SpecWords PegPoints PegAgree SynShape GoChars.
From Coq Require Import NArith Arith Bool Lia.
Open Scope nat_scope.
Open Scope list_scope.

Lemma decode_code k t : utf8_char k -> decode_rune (k ++ t) = (char_code k, List.length k).
Proof.
  intros H. destruct H; cbn [app List.length];
    repeat match goal with B : byte_in _ _ _ |- _ => unfold byte_in in B | B : tail_byte _ |- _ => unfold tail_byte, byte_in in B end;
    unfold decode_rune, cont, char_code; cbn [map]; decide_bytes; cbn [andb]; reflexivity.
Qed.
Lemma in_ranges_listed rs r : in_ranges rs r = true <-> listed rs r.
Proof.
  unfold in_ranges, listed. rewrite existsb_exists. split.
  - intros ([lo hi] & I & H). cbn [fst snd] in H. apply andb_true_iff in H. rewrite !N.leb_le in H. exists lo, hi. split; [exact I|lia].
  - intros (lo & hi & I & H). exists (lo, hi). split; [exact I|]. cbn [fst snd]. apply andb_true_iff. rewrite !N.leb_le. lia.
Qed.
Lemma ranges_high : forallb (fun p => (128 <=? fst p)%N) (letter_ranges ++ digit_ranges) = true.
Proof. vm_compute. reflexivity. Qed.
Lemma listed_high rs r : incl rs (letter_ranges ++ digit_ranges) -> listed rs r -> (128 <= r)%N.
Proof.
  intros Q (lo & hi & I & H). pose proof ranges_high as X. rewrite forallb_forall in X. specialize (X _ (Q _ I)). cbn [fst] in X. apply N.leb_le in X. lia.
Qed.
Lemma letters_high r : listed letter_ranges r -> (128 <= r)%N.
Proof. apply listed_high. apply incl_appl, incl_refl. Qed.
Lemma digits_high r : listed digit_ranges r -> (128 <= r)%N.
Proof. apply listed_high. apply incl_appr, incl_refl. Qed.
Lemma rune_letter_iff k : rune_letter (char_code k) = true <-> go_letter k.
Proof.
  unfold rune_letter, go_letter. cbn zeta. set (r := char_code k). rewrite !orb_true_iff, !andb_true_iff, !N.leb_le, N.eqb_eq, in_ranges_listed. split.
  - intros [[[H|H]|H]|[_ H]]; tauto.
  - intros [[H|[H|H]]|H]; [tauto..|]. pose proof (letters_high r H). tauto.
Qed.
Lemma rune_digit_iff k : rune_digit (char_code k) = true <-> go_digit k.
Proof.
  unfold rune_digit, go_digit. cbn zeta. set (r := char_code k). rewrite !orb_true_iff, !andb_true_iff, !N.leb_le, in_ranges_listed. split.
  - intros [H|[_ H]]; tauto.
  - intros [H|H]; [tauto|]. pose proof (digits_high r H). tauto.
Qed.
Lemma error_rune b : rune_letter RuneError || b && rune_digit RuneError = false.
Proof. destruct b; vm_compute; reflexivity. Qed.

(** A character that may stand in a name, at its start or later. *)
Definition name_char (first : bool) (k : text) : Prop := utf8_char k /\ (go_letter k \/ first = false /\ go_digit k).
Inductive name_text : bool -> text -> Prop :=
| nt_end first : name_text first []
| nt_char first k t : name_char first k -> name_text false t -> name_text first (k ++ t).

Lemma char_len k : utf8_char k -> List.length k <> 0.
Proof. intros H. destruct H; discriminate. Qed.
Lemma runes_iff n : forall first s, List.length s <= n -> name_runes n first s = true <-> name_text first s.
Proof.
  induction n as [|n IH]; intros first s L; [destruct s; [|cbn in L; lia]; cbn; split; [constructor|reflexivity]|].
  destruct s as [|c s]; [cbn; split; [constructor|reflexivity]|]. cbn [name_runes]. destruct (decode_rune (c :: s)) as [r w] eqn:D. rewrite andb_true_iff. split.
  - intros [V R].
    assert (V' : ~ (r = RuneError /\ w = 1)). { intros [-> _]. rewrite error_rune in V. discriminate. }
    destruct (decode_utf8 (c :: s) r w ltac:(discriminate) D V') as (k & t & E & K & ->). rewrite E in *. pose proof (char_len k K).
    rewrite (decode_code k t K) in D. injection D as <-. rewrite skipn_app, Nat.sub_diag, skipn_all in R. cbn [skipn app] in R. constructor.
    + split; [exact K|]. apply orb_true_iff in V. rewrite andb_true_iff, negb_true_iff, rune_letter_iff, rune_digit_iff in V. exact V.
    + apply IH; [|exact R]. rewrite app_length in L. lia.
  - intros N. inversion N as [|? k t [K Kl] N' E1 E]. subst first0. rewrite <- E in *. rewrite (decode_code k t K) in D. injection D as <- <-.
    rewrite skipn_app, Nat.sub_diag, skipn_all. cbn [skipn app]. pose proof (char_len k K). split.
    + rewrite orb_true_iff, andb_true_iff, negb_true_iff, rune_letter_iff, rune_digit_iff. exact Kl.
    + apply IH; [|exact N']. rewrite app_length in L. lia.
Qed.
Lemma good_name_iff w : good_name w = true <-> name_text true w.
Proof. apply runes_iff. lia. Qed.

(** *** Bytes *)
Lemma low_char k : utf8_char k -> (char_code k < 128)%N -> exists c, k = [c] /\ byte_val c = char_code k /\ (byte_val c < 128)%N.
Proof.
  intros K L. destruct K; unfold tail_byte, byte_in in *; unfold char_code in *; cbn [map] in *; try (exfalso; lia).
  exists a. repeat split; lia.
Qed.
Lemma high_char k : utf8_char k -> (128 <= char_code k)%N -> Forall (fun c => high c = true) k.
Proof.
  intros K L. unfold high. destruct K; unfold tail_byte, byte_in in *; unfold char_code in L; cbn [map] in L; try lia;
    repeat constructor; apply N.leb_le; lia.
Qed.
Lemma high_alnum c : high c = true -> is_letter c = true /\ is_alnum c = true.
Proof. intros H. unfold is_alnum, is_letter. rewrite H, orb_true_r. auto. Qed.
Lemma byte_letter c : rune_letter (byte_val c) = true -> (byte_val c < 128)%N -> is_letter c = true.
Proof. intros H L. destruct c as [[] [] [] [] [] [] [] []]; vm_compute in H |- *; try discriminate; try reflexivity; vm_compute in L; discriminate. Qed.
Lemma byte_digit c : rune_digit (byte_val c) = true -> (byte_val c < 128)%N -> is_digit c = true.
Proof. intros H L. destruct c as [[] [] [] [] [] [] [] []]; vm_compute in H |- *; try discriminate; try reflexivity; vm_compute in L; discriminate. Qed.
Lemma letter_bytes k : utf8_char k -> go_letter k -> exists c t, k = c :: t /\ is_letter c = true /\ Forall (fun c => is_alnum c = true) t.
Proof.
  intros K L. destruct (N.lt_ge_cases (char_code k) 128) as [X|X].
  - destruct (low_char k K X) as (c & -> & E & B). exists c, []. split; [reflexivity|]. split; [|constructor]. apply byte_letter; [|exact B]. rewrite E. apply rune_letter_iff. exact L.
  - pose proof (high_char k K X) as F. destruct k as [|c t]; [destruct (char_len _ K eq_refl)|]. inversion F; subst. exists c, t. split; [reflexivity|]. split; [apply high_alnum; assumption|].
    eapply Forall_impl; [|eassumption]. intros d D. apply high_alnum. exact D.
Qed.
Lemma name_bytes k first : name_char first k -> Forall (fun c => is_alnum c = true) k.
Proof.
  intros [K [L|[_ D]]].
  - destruct (letter_bytes k K L) as (c & t & -> & C & F). constructor; [unfold is_alnum; rewrite C; reflexivity|exact F].
  - destruct (N.lt_ge_cases (char_code k) 128) as [X|X].
    + destruct (low_char k K X) as (c & -> & E & B). constructor; [|constructor]. unfold is_alnum. rewrite (byte_digit c); [apply orb_true_r| |exact B]. rewrite E. apply rune_digit_iff. exact D.
    + eapply Forall_impl; [|exact (high_char k K X)]. intros d Hd. apply high_alnum. exact Hd.
Qed.
Lemma text_bytes first s : name_text first s -> Forall (fun c => is_alnum c = true) s.
Proof. induction 1 as [|first k t K _ IH]; [constructor|]. apply Forall_app. split; [exact (name_bytes k first K)|exact IH]. Qed.
(** A name's first byte. *)
Lemma text_head c t : name_text true (c :: t) -> is_letter c = true.
Proof.
  intros N. inversion N as [|? k t' [K [L|[X _]]] _ E1 E]; [|discriminate]. destruct (letter_bytes k K L) as (c' & k' & -> & C & _). cbn in E. injection E as -> _. exact C.
Qed.
Lemma name_go_char first k : name_char first k -> go_char k.
Proof.
  intros [K N]. split; [exact K|].
  assert (X : forall k', rune_letter (char_code k') || rune_digit (char_code k') = false -> k <> k').
  { intros k' X ->. apply orb_false_iff in X. destruct X as [X1 X2]. destruct N as [N|[_ N]]; [apply rune_letter_iff in N|apply rune_digit_iff in N]; congruence. }
  split; apply X; vm_compute; reflexivity.
Qed.
Lemma text_source first s : name_text first s -> go_source s.
Proof. induction 1 as [|first k t K _ IH]; [constructor|]. constructor; [exact (name_go_char first k K)|exact IH]. Qed.

(** ASCII words are names. *)
Lemma ascii_text t : Forall (fun c => is_alnum c = true /\ high c = false) t -> name_text false t.
Proof.
  induction 1 as [|c t [A H] _ IH]; [constructor|]. apply (nt_char false [c]); [|exact IH].
  assert (B : (byte_val c < 128)%N) by (unfold high in H; apply N.leb_gt in H; exact H).
  split; [constructor; unfold byte_in; lia|]. rewrite <- rune_letter_iff, <- rune_digit_iff. change (char_code [c]) with (byte_val c).
  destruct c as [[] [] [] [] [] [] [] []]; vm_compute in A; vm_compute in H; try discriminate; vm_compute; auto.
Qed.
Lemma ascii_name c t : is_letter c = true -> high c = false -> Forall (fun c => is_alnum c = true /\ high c = false) t -> name_text true (c :: t).
Proof.
  intros A H F. apply (nt_char true [c]); [|apply ascii_text; exact F].
  assert (B : (byte_val c < 128)%N) by (unfold high in H; apply N.leb_gt in H; exact H).
  split; [constructor; unfold byte_in; lia|]. left. rewrite <- rune_letter_iff. change (char_code [c]) with (byte_val c).
  destruct c as [[] [] [] [] [] [] [] []]; vm_compute in A; vm_compute in H; try discriminate; vm_compute; auto.
Qed.

(** ** White space is not at the start or the end of a name *)
Lemma char_cut k y e t : utf8_char k -> utf8_char e -> k ++ t = y ++ e -> y = [] \/ exists y', y = k ++ y'.
Proof.
  intros K E H. destruct (char_bytes k K) as (c & k' & -> & F & _). destruct (char_bytes e E) as (d & e' & -> & _ & Nd & _).
  destruct y as [|a y]; [auto|]. right. cbn [app] in H. injection H as <- H. assert (P : exists x', y = k' ++ x').
  { clear -F H Nd. revert y H. induction F as [|a k' Ha F IH]; intros x H; [exists x; reflexivity|]. destruct x as [|b x].
    - exfalso. cbn in H. injection H as -> _. exact (Nd Ha).
    - cbn in H. injection H as <- H. destruct (IH x H) as [x' ->]. exists x'. reflexivity. }
  destruct P as [x' ->]. exists x'. reflexivity.
Qed.
Lemma text_last_char first s : name_text first s -> forall y e, utf8_char e -> s = y ++ e -> go_letter e \/ go_digit e.
Proof.
  induction 1 as [first|first k t [K N] T IH]; intros y e E H.
  - symmetry in H. apply app_eq_nil in H. destruct H as [_ ->]. destruct (char_len _ E eq_refl).
  - destruct (char_cut k y e t K E H) as [->|[y' ->]].
    + cbn in H. subst e. pose proof (decode_code (k ++ t) [] E) as D. rewrite app_nil_r, (decode_code k t K) in D. injection D as _ L.
      rewrite app_length in L. destruct t; [|cbn in L; lia]. rewrite app_nil_r. tauto.
    + rewrite <- app_assoc in H. apply app_inv_head in H. exact (IH y' e E H).
Qed.
Lemma text_first_char k t : utf8_char k -> name_text true (k ++ t) -> go_letter k.
Proof.
  intros K N. inversion N as [f0 E1 E|? k' t' [K' [L|[X _]]] _ E1 E]; [symmetry in E; apply app_eq_nil in E; destruct E as [-> _]; destruct (char_len _ K eq_refl)| |discriminate].
  pose proof (decode_code k t K) as D. rewrite <- E, (decode_code k' t' K') in D. injection D as _ Len.
  assert (X : k' = k). { clear -E Len. revert k Len E. induction k' as [|a k' IH]; intros [|b k] L E; try discriminate; [reflexivity|]. cbn in *. injection E as -> E. injection L as L. rewrite (IH k L E). reflexivity. }
  subst k'. exact L.
Qed.
Lemma spaces_utf8 e : In e space_encodings -> utf8_char e /\ ~ go_letter e /\ ~ go_digit e.
Proof.
  intros I. assert (X : utf8_char e /\ rune_letter (char_code e) || rune_digit (char_code e) = false).
  { cbn [space_encodings app map bytes_of In] in I.
    repeat (destruct I as [<-|I]; [split; [|vm_compute; reflexivity]|]); try contradiction.
    all: first [apply utf8_1; split; vm_compute; discriminate|apply utf8_2; split; vm_compute; discriminate|apply utf8_3b; split; vm_compute; discriminate]. }
  destruct X as [K X]. apply orb_false_iff in X. destruct X as [X1 X2]. split; [exact K|]. rewrite <- rune_letter_iff, <- rune_digit_iff. split; congruence.
Qed.
Lemma app_split {A} (a b c d : list A) : a ++ b = c ++ d -> List.length a <= List.length c -> exists m, c = a ++ m /\ b = m ++ d.
Proof.
  revert c. induction a as [|x a IH]; intros c E L; [exists c; auto|]. destruct c as [|y c]; [cbn in L; lia|]. cbn in E, L. injection E as -> E. destruct (IH c E ltac:(lia)) as (m & -> & ->). exists m. auto.
Qed.
Lemma char_suffix m k : utf8_char k -> utf8_char (m ++ k) -> m = [].
Proof.
  intros K E. destruct m as [|x m]; [reflexivity|]. exfalso. destruct (char_bytes _ E) as (c & t & E' & F & _). cbn in E'. injection E' as <- <-. apply Forall_app in F. destruct F as [_ F].
  destruct (char_bytes k K) as (d & t & -> & _ & N & _). inversion F; subst. contradiction.
Qed.
Lemma same_end r k y e : utf8_char k -> utf8_char e -> r ++ k = y ++ e -> k = e.
Proof.
  intros K E H. destruct (Nat.le_ge_cases (List.length r) (List.length y)) as [L|L].
  - destruct (app_split _ _ _ _ H L) as (m & -> & X). rewrite X in K. apply (char_suffix m e E) in K. subst. reflexivity.
  - symmetry in H. destruct (app_split _ _ _ _ H L) as (m & -> & X). rewrite X in E. apply (char_suffix m k K) in E. subst. reflexivity.
Qed.
Lemma same_start k r e y : utf8_char k -> utf8_char e -> k ++ r = e ++ y -> k = e.
Proof.
  intros K E H. pose proof (decode_code k r K) as D. rewrite H, (decode_code e y E) in D. injection D as _ L.
  destruct (app_split _ _ _ _ H ltac:(lia)) as (m & -> & _). rewrite app_length in L. destruct m; [rewrite app_nil_r; reflexivity|cbn in L; lia].
Qed.
(** Texts that start, or end, with a character other than white space. *)
Definition solid (k : text) : Prop := utf8_char k /\ ~ In k space_encodings.
Definition solid_start (t : text) : Prop := exists k r, t = k ++ r /\ solid k.
Definition solid_end (t : text) : Prop := exists r k, t = r ++ k /\ solid k.
Lemma start_app a b : solid_start a -> solid_start (a ++ b).
Proof. intros (k & r & -> & S). exists k, (r ++ b). rewrite app_assoc. auto. Qed.
Lemma end_app a b : solid_end b -> solid_end (a ++ b).
Proof. intros (r & k & -> & S). exists (a ++ r), k. rewrite app_assoc. auto. Qed.
Lemma start_no_space t k r : solid_start t -> In k space_encodings -> t <> k ++ r.
Proof. intros (k' & r' & -> & K & N) I E. apply same_start in E; [subst; contradiction|exact K|apply spaces_utf8; exact I]. Qed.
Lemma end_no_space t k r : solid_end t -> In k space_encodings -> t <> r ++ k.
Proof. intros (r' & k' & -> & K & N) I E. apply same_end in E; [subst; contradiction|exact K|apply spaces_utf8; exact I]. Qed.
Lemma solid_byte c : (32 < byte_val c < 128)%N -> solid [c].
Proof.
  intros B. split; [constructor; unfold byte_in; lia|]. intros I. cbn [space_encodings app map bytes_of In] in I.
  repeat (destruct I as [X|I]; [try discriminate X; injection X as <-; vm_compute in B; destruct B; discriminate|]). exact I.
Qed.
Lemma name_solid k first : name_char first k -> solid k.
Proof. intros [K N]. split; [exact K|]. intros I. destruct (spaces_utf8 k I) as (_ & N1 & N2). tauto. Qed.
Lemma text_start c t : name_text true (c :: t) -> solid_start (c :: t).
Proof. intros N. inversion N as [|first k r K T E1 E]. exists k, r. split; [reflexivity|]. exact (name_solid k true K). Qed.
Lemma text_end first s : name_text first s -> s <> [] -> solid_end s.
Proof.
  induction 1 as [first|first k t K T IH]; intros Ne; [congruence|]. destruct t as [|c t].
  - rewrite app_nil_r. exists [], k. split; [reflexivity|]. exact (name_solid k first K).
  - apply end_app. apply IH. discriminate.
Qed.
