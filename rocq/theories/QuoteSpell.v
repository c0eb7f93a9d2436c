(** What strconv.Quote writes is a Go string literal for the string. *)
From Verif Require Import Text Utf8 SpecUtf8 Quote SpecDump QuoteFacts PegAgree.
From Coq Require Import Arith NArith Bool Lia.
Open Scope N_scope.

Lemma utf8_decode_alone k t : utf8_char k -> decode_rune (k ++ t) = decode_rune k.
Proof.
  intros H. destruct H; cbn [app];
    repeat match goal with B : byte_in _ _ _ |- _ => unfold byte_in in B | B : tail_byte _ |- _ => unfold tail_byte, byte_in in B end;
    unfold decode_rune, cont; decide_bytes; reflexivity.
Qed.
Lemma hexes_number k : forall n, n < 16 ^ N.of_nat k -> hex_number (hexes k n) n.
Proof.
  induction k; intros n H.
  - cbn in *. assert (n = 0) as -> by lia. constructor.
  - cbn [hexes]. rewrite (N.div_mod n 16) at 3 by lia.
    assert (M : n mod 16 < 16) by (apply N.mod_lt; lia).
    replace (n mod 16) with (N.of_nat (N.to_nat (n mod 16))) at 2 by lia. constructor.
    + apply IHk. rewrite Nat2N.inj_succ, N.pow_succ_r' in H. apply N.div_lt_upper_bound; lia.
    + revert M. generalize (n mod 16). intros m M.
      assert (X : m = 0 \/ m = 1 \/ m = 2 \/ m = 3 \/ m = 4 \/ m = 5 \/ m = 6 \/ m = 7 \/ m = 8 \/ m = 9 \/ m = 10 \/ m = 11 \/ m = 12 \/ m = 13 \/ m = 14 \/ m = 15) by lia.
      repeat (destruct X as [->|X]; [reflexivity|]). subst. reflexivity.
Qed.
Lemma spells_raws l t s : Forall (fun c => c <> dquote /\ c <> "\"%char /\ c <> nl) l -> spells t s -> spells (l ++ t) (l ++ s).
Proof. induction 1 as [|c l (A & B & C) F IH]; intros S; [exact S|]. cbn. apply spells_raw; auto. Qed.

Section S.
  Variable wide_print : N -> bool.
  Lemma spells_escaped r enc t s :
    utf8_char enc -> decode_rune enc = (r, List.length enc) -> r < 1114112 ->
    (r < 128 /\ enc = [ascii_of_N r] \/ 128 <= r /\ Forall (fun c => 128 <= byte_val c) enc) ->
    spells t s -> spells (escaped wide_print r enc ++ t) (enc ++ s).
  Proof.
    intros K D L C S. unfold escaped.
    destruct ((r =? 34) || (r =? 92)) eqn:Q.
    { apply orb_true_iff in Q. rewrite !N.eqb_eq in Q. assert (r < 128) by lia. destruct C as [[_ ->]|[C _]]; [|lia].
      destruct Q as [->| ->]; cbn [app].
      - apply (spells_escape dquote 34); [cbn; tauto|exact S].
      - apply (spells_escape "\"%char 92); [cbn; tauto|exact S]. }
    apply orb_false_iff in Q. rewrite !N.eqb_neq in Q.
    destruct (is_print wide_print r) eqn:P.
    { apply spells_raws; [|exact S]. destruct C as [[C ->]|[_ C]].
      - constructor; [|constructor]. unfold is_print in P. destruct (N.ltb_spec r 128); [|lia]. apply andb_true_iff in P. destruct P as [P _]. apply N.leb_le in P.
        repeat split; intros X; apply (f_equal byte_val) in X; unfold byte_val in X; rewrite N_ascii_embedding in X by lia.
        + change (N_of_ascii dquote) with 34 in X. lia.
        + change (N_of_ascii "\"%char) with 92 in X. lia.
        + change (N_of_ascii nl) with 10 in X. lia.
      - eapply Forall_impl; [|exact C]. cbn. intros c Hc. repeat split; intros ->; vm_compute in Hc; now apply Hc. }
    destruct (N.eqb_spec r 7) as [->|?]; [destruct C as [[_ ->]|[C _]]; [|lia]; apply (spells_escape "a"%char 7); [cbn; tauto|exact S]|].
    destruct (N.eqb_spec r 8) as [->|?]; [destruct C as [[_ ->]|[C _]]; [|lia]; apply (spells_escape "b"%char 8); [cbn; tauto|exact S]|].
    destruct (N.eqb_spec r 12) as [->|?]; [destruct C as [[_ ->]|[C _]]; [|lia]; apply (spells_escape "f"%char 12); [cbn; tauto|exact S]|].
    destruct (N.eqb_spec r 10) as [->|?]; [destruct C as [[_ ->]|[C _]]; [|lia]; apply (spells_escape "n"%char 10); [cbn; tauto|exact S]|].
    destruct (N.eqb_spec r 13) as [->|?]; [destruct C as [[_ ->]|[C _]]; [|lia]; apply (spells_escape "r"%char 13); [cbn; tauto|exact S]|].
    destruct (N.eqb_spec r 9) as [->|?]; [destruct C as [[_ ->]|[C _]]; [|lia]; apply (spells_escape "t"%char 9); [cbn; tauto|exact S]|].
    destruct (N.eqb_spec r 11) as [->|?]; [destruct C as [[_ ->]|[C _]]; [|lia]; apply (spells_escape "v"%char 11); [cbn; tauto|exact S]|].
    destruct (N.ltb_spec r 32).
    { destruct C as [[_ ->]|[C _]]; [|lia]. rewrite <- app_assoc. apply spells_byte; [apply hexes_length|apply hexes_number; cbn; lia|exact S]. }
    destruct (N.ltb_spec r 65536).
    { rewrite <- app_assoc. apply (spells_u _ r); auto; apply hexes_number; cbn; lia. }
    rewrite <- app_assoc. apply (spells_U _ r); auto; apply hexes_number; cbn; lia.
  Qed.
  Lemma quoted_spells n : forall s, (List.length s <= n)%nat -> spells (quoted wide_print n s) s.
  Proof.
    induction n as [|n IH]; intros s L.
    - destruct s; [constructor|cbn in L; lia].
    - destruct s as [|b s]; [constructor|]. cbn [quoted].
      destruct (decode_rune (b :: s)) as [r w] eqn:D.
      destruct ((w =? 1)%nat && (r =? RuneError)) eqn:B.
      + apply andb_true_iff in B. destruct B as [B1 B2]. apply Nat.eqb_eq in B1. apply N.eqb_eq in B2. subst w r. cbn [skipn].
        rewrite <- (byte_back b) at 2. apply spells_byte; [apply hexes_length|apply hexes_number; apply (N.lt_le_trans _ 256); [apply byte_lt|cbn; lia]|apply IH; cbn in L; lia].
      + assert (V : ~ (r = RuneError /\ w = 1%nat)) by (intros [-> ->]; cbn in B; discriminate).
        destruct (decode_encode (b :: s) r w ltac:(discriminate) D V) as (E & R & W & C).
        destruct (decode_utf8 (b :: s) r w ltac:(discriminate) D V) as (k & t' & E' & K & Lk).
        assert (F : firstn w (b :: s) = k) by (rewrite E', Lk, firstn_app, Nat.sub_diag, firstn_all; apply app_nil_r).
        rewrite <- (firstn_skipn w (b :: s)) at 3. rewrite F.
        apply spells_escaped; auto.
        * pose proof D as D'. rewrite E', utf8_decode_alone in D' by exact K. rewrite D'. now rewrite Lk.
        * destruct C as [(C & c & E1 & -> & ->)|C]; [left|right; rewrite <- F; exact C]. split; [exact C|]. rewrite <- F. cbn. injection E1 as ->. now rewrite byte_back.
        * apply IH. pose proof (skipn_length w (b :: s)). lia.
  Qed.
  Lemma Quote_spells s : exists t, Quote wide_print s = dquote :: t ++ [dquote] /\ spells t s.
  Proof. exists (quoted wide_print (List.length s) s). split; [reflexivity|]. apply quoted_spells. lia. Qed.
End S.
