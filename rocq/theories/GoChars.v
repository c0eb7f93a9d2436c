(** The characters of a source: the check of the reference Go scanner, and the
    specification of SpecWords.v. *)
From Verif Require Import Text Utf8 SpecUtf8 GoParser SpecWords PegPoints PegAgree SynShape.
From Verif Require QuoteFacts.
From Coq Require Import NArith Arith Bool Lia.
Open Scope nat_scope.
Open Scope list_scope.

Definition nul : ascii := ascii_of_nat 0.
Definition mark : text := map ascii_of_nat [239; 187; 191].
Lemma bom_mark : bom = mark. Proof. reflexivity. Qed.

Lemma source_utf8 s : go_source s -> utf8 s.
Proof. induction 1 as [|k t K _ IH]; [constructor|]. constructor; [apply K|exact IH]. Qed.
Lemma source_app a b : go_source a -> go_source b -> go_source (a ++ b).
Proof. intros A B. induction A as [|k t K _ IH]; [exact B|]. rewrite <- app_assoc. constructor; assumption. Qed.
Definition plain (c : ascii) : Prop := (0 < byte_val c < 128)%N.
Lemma plain_char c : plain c -> go_char [c].
Proof.
  intros H. split; [constructor; unfold byte_in, plain in *; lia|]. split; [|discriminate].
  intros E. injection E as ->. vm_compute in H. destruct H; discriminate.
Qed.
Lemma source_plain t : Forall plain t -> go_source t.
Proof. induction 1 as [|c t H _ IH]; [constructor|]. apply (go_next [c]); [apply plain_char; exact H|exact IH]. Qed.

(** The bytes of a character after the first continue it. *)
Lemma char_bytes k : utf8_char k -> exists c t, k = c :: t /\ Forall (fun x => (128 <= byte_val x <= 191)%N) t /\ ~ (128 <= byte_val c <= 191)%N /\
  ((byte_val c = 239)%N -> List.length t = 2) /\ (t <> [] -> (128 <= byte_val c)%N).
Proof.
  intros H. destruct H; unfold tail_byte, byte_in in *; eexists _, _; (split; [reflexivity|]); (split; [repeat constructor; lia|]); (split; [lia|]); (split; [cbn; lia|]); intros; try lia; try congruence.
Qed.
Lemma mark_bytes x : In x mark -> (128 <= byte_val x)%N.
Proof. intros [<-|[<-|[<-|[]]]]; vm_compute; discriminate. Qed.
Definition has_mark (s : text) : Prop := exists x y, s = x ++ mark ++ y.

Lemma source_no_mark s : go_source s -> ~ has_mark s.
Proof.
  induction 1 as [|k t [K [_ N]] _ IH]; intros (x & y & E); [destruct x; discriminate|].
  destruct (char_bytes k K) as (c & k' & -> & F & Nc & L3 & _). destruct x as [|d x].
  - cbn in E. injection E as -> E. specialize (L3 eq_refl). destruct k' as [|a [|b [|? ?]]]; try discriminate. cbn in E. injection E as -> -> _. apply N. reflexivity.
  - cbn [app] in E. injection E as <- E. assert (P : exists x', x = k' ++ x').
    { clear -F E. revert x E. induction F as [|a k' Ha F IH]; intros x E; [exists x; reflexivity|]. destruct x as [|d x].
      - exfalso. cbn in E. injection E as -> _. vm_compute in Ha. destruct Ha as [_ Ha]. apply Ha. reflexivity.
      - cbn in E. injection E as <- E. destruct (IH x E) as [x' ->]. exists x'. reflexivity. }
    destruct P as [x' ->]. rewrite <- app_assoc in E. apply app_inv_head in E. apply IH. exists x', y. exact E.
Qed.
Lemma source_no_nul s : go_source s -> ~ In nul s.
Proof.
  induction 1 as [|k t [K [N _]] _ IH]; [intros []|]. intros I. apply in_app_or in I. destruct I as [I|I]; [|exact (IH I)].
  destruct (char_bytes k K) as (c & k' & -> & F & _ & _ & B). destruct I as [->|I].
  - destruct k' as [|a k']; [exact (N eq_refl)|]. specialize (B ltac:(discriminate)). vm_compute in B. exact (B eq_refl).
  - rewrite Forall_forall in F. specialize (F _ I). vm_compute in F. destruct F as [F _]. exact (F eq_refl).
Qed.
Lemma source_iff s : go_source s <-> utf8 s /\ ~ In nul s /\ ~ has_mark s.
Proof.
  split; [intros H; split; [exact (source_utf8 s H)|split; [exact (source_no_nul s H)|exact (source_no_mark s H)]]|].
  intros (U & N & M). induction U as [|k t K U IH]; [constructor|]. constructor.
  - split; [exact K|]. split.
    + intros ->. apply N. left. reflexivity.
    + intros ->. apply M. exists [], t. reflexivity.
  - apply IH; [intros I; apply N, in_or_app; auto|]. intros (x & y & ->). apply M. exists (k ++ x), y. rewrite <- app_assoc. reflexivity.
Qed.
Lemma source_part a m b : go_source (a ++ m ++ b) -> utf8 m -> go_source m.
Proof.
  intros S U. apply source_iff in S. destruct S as (_ & N & M). apply source_iff. split; [exact U|]. split.
  - intros I. apply N. rewrite !in_app_iff. auto.
  - intros (x & y & ->). apply M. exists (a ++ x), (y ++ b). rewrite <- !app_assoc. reflexivity.
Qed.

(** The check. *)
Lemma mark_code k t : utf8_char k -> fst (decode_rune (k ++ t)) = 65279%N -> k = mark.
Proof.
  intros K E. destruct (utf8_decode k t K) as (r & D & S). rewrite D in E. cbn [fst] in E. subst r.
  assert (Ne : k ++ t <> []) by (destruct K; discriminate).
  destruct (QuoteFacts.decode_encode _ _ _ Ne D) as (F & _); [intros [X _]; discriminate|].
  rewrite firstn_app, Nat.sub_diag, firstn_all in F. cbn [firstn] in F. rewrite app_nil_r in F. rewrite F. reflexivity.
Qed.
Lemma nul_code k t : utf8_char k -> fst (decode_rune (k ++ t)) = 0%N -> k = [nul].
Proof.
  intros K E. destruct (utf8_decode k t K) as (r & D & S). rewrite D in E. cbn [fst] in E. subst r.
  assert (Ne : k ++ t <> []) by (destruct K; discriminate).
  destruct (QuoteFacts.decode_encode _ _ _ Ne D) as (F & _); [intros [X _]; discriminate|].
  rewrite firstn_app, Nat.sub_diag, firstn_all in F. cbn [firstn] in F. rewrite app_nil_r in F. rewrite F. reflexivity.
Qed.
Lemma decode_nul t : fst (decode_rune (nul :: t)) = 0%N. Proof. reflexivity. Qed.
Lemma decode_mark t : fst (decode_rune (mark ++ t)) = 65279%N. Proof. reflexivity. Qed.

Lemma source_chars_iff n : forall s, List.length s <= n -> source_chars n s = true <-> go_source s.
Proof.
  induction n as [|n IH]; intros s L; [destruct s; [|cbn in L; lia]; cbn; split; [constructor|reflexivity]|].
  destruct s as [|c s]; [cbn; split; [constructor|reflexivity]|]. cbn [source_chars]. destruct (decode_rune (c :: s)) as [r w] eqn:D. split.
  - rewrite !andb_true_iff, !negb_true_iff. intros (((V & Z) & M) & R).
    assert (V' : ~ (r = RuneError /\ w = 1)). { intros [-> ->]. cbn in V. discriminate. }
    destruct (decode_utf8 (c :: s) r w ltac:(discriminate) D V') as (k & t & E & K & ->). rewrite E in *.
    rewrite skipn_app, Nat.sub_diag, skipn_all in R. cbn [skipn app] in R. constructor.
    + split; [exact K|]. split; intros ->.
      * pose proof (decode_nul t) as X. change (nul :: t) with ([ascii_of_nat 0] ++ t) in X. rewrite D in X. cbn in X. subst r. discriminate.
      * pose proof (decode_mark t) as X. fold mark in D. rewrite D in X. cbn in X. subst r. discriminate.
    + apply IH; [|exact R]. rewrite app_length in L. assert (List.length k <> 0) by (destruct K; discriminate). lia.
  - intros S. inversion S as [|k t K S' E]. destruct (utf8_decode k t (proj1 K)) as (r' & D' & Sm). rewrite E, D in D'. injection D' as <- ->.
    assert (Sk : skipn (List.length k) (c :: s) = t) by (rewrite <- E, skipn_app, Nat.sub_diag, skipn_all; reflexivity).
    rewrite E, Sk. rewrite !andb_true_iff, !negb_true_iff. split; [split; [split|]|].
    + destruct (N.eqb_spec r RuneError) as [->|]; [|reflexivity]. destruct (Nat.eqb_spec (List.length k) 1) as [X|]; [|reflexivity]. specialize (Sm X). vm_compute in Sm. discriminate.
    + destruct (N.eqb_spec r 0) as [->|]; [|reflexivity]. elim (proj1 (proj2 K)). apply (nul_code k t (proj1 K)). rewrite E, D. reflexivity.
    + destruct (N.eqb_spec r 65279) as [->|]; [|reflexivity]. elim (proj2 (proj2 K)). apply (mark_code k t (proj1 K)). rewrite E, D. reflexivity.
    + apply IH; [|exact S']. apply (f_equal (@List.length _)) in E. cbn [List.length] in E, L. rewrite app_length in E. assert (List.length k <> 0) by (destruct (proj1 K); discriminate). lia.
Qed.
Lemma source_checked s : source_chars (List.length s) s = true <-> go_source s.
Proof. apply source_chars_iff. lia. Qed.

(** Whole characters at the front. *)
Lemma char_front k t : utf8_char k -> snd (decode_rune (k ++ t)) = List.length k.
Proof. intros K. destruct (utf8_decode k t K) as (r & -> & _). reflexivity. Qed.
Lemma source_rest k t : utf8_char k -> go_source (k ++ t) -> go_char k /\ go_source t.
Proof.
  intros K S. inversion S as [E|k' t' K' S' E]; [destruct K; discriminate|].
  assert (L : List.length k' = List.length k) by (rewrite <- (char_front k' t' (proj1 K')), <- (char_front k t K), E; reflexivity).
  assert (X : k' = k /\ t' = t).
  { clear -E L. revert k L E. induction k' as [|a k' IH]; intros [|b k] L E; try discriminate; [auto|]. cbn in *. injection E as -> E. injection L as L. destruct (IH k L E) as [-> ->]. auto. }
  destruct X as [-> ->]. auto.
Qed.
Lemma source_tail c t : plain c -> go_source (c :: t) -> go_source t.
Proof. intros P S. apply (source_rest [c] t); [|exact S]. constructor. unfold byte_in, plain in *. lia. Qed.

(** A byte order mark at the front. *)
Lemma bom_prefix s : has_prefix bom s = true -> s = mark ++ skipn 3 s.
Proof.
  intros H. assert (X : forall e s, has_prefix e s = true -> exists r, s = e ++ r).
  { clear. induction e as [|a e IH]; intros s H; [exists s; reflexivity|]. destruct s as [|b s]; [discriminate|]. cbn [has_prefix] in H. destruct (ascii_dec a b) as [->|]; [|discriminate].
    destruct (IH s H) as [r ->]. exists r. reflexivity. }
  destruct (X _ _ H) as [r ->]. reflexivity.
Qed.
Lemma source_no_bom s : go_source s -> has_prefix bom s = false.
Proof.
  intros S. destruct (has_prefix bom s) eqn:H; [|reflexivity]. apply bom_prefix in H. elim (source_no_mark s S). exists [], (skipn 3 s). exact H.
Qed.
Lemma plain_no_bom c s : plain c -> has_prefix bom (c :: s) = false.
Proof.
  intros P. destruct (has_prefix bom (c :: s)) eqn:H; [|reflexivity]. apply bom_prefix in H. cbn in H. injection H as -> _. vm_compute in P. destruct P; discriminate.
Qed.
