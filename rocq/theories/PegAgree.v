(** The parser engine computes the semantics of PegSem.v. *)
From Verif Require Import Text GoAst Ast Utf8 Peg SpecUtf8 PegPoints PegSem.
From Coq Require Import NArith Arith Bool Lia.
Open Scope N_scope.

(** * Decoding well-formed UTF-8 *)
Lemma bytein_cont lo hi c : byte_in lo hi c -> cont lo hi c = true.
Proof. unfold byte_in, cont. intros [H H']. apply N.leb_le in H, H'. rewrite H, H'. reflexivity. Qed.
Lemma cont_bytein lo hi c : cont lo hi c = true -> byte_in lo hi c.
Proof. unfold byte_in, cont. rewrite andb_true_iff, !N.leb_le. auto. Qed.

Ltac decide_bytes :=
  repeat match goal with |- context [?a =? ?b] => destruct (N.eqb_spec a b); try lia end;
  repeat match goal with
  | |- context [?a <? ?b] => destruct (N.ltb_spec a b); try lia
  | |- context [?a <=? ?b] => destruct (N.leb_spec a b); try lia
  | |- context [?a =? ?b] => destruct (N.eqb_spec a b); try lia
  end.

Lemma utf8_decode k t : utf8_char k -> exists r, decode_rune (k ++ t) = (r, List.length k) /\
  (List.length k = 1%nat -> r < 128).
Proof.
  intros H. destruct H; cbn [app List.length];
    repeat match goal with B : byte_in _ _ _ |- _ => unfold byte_in in B | B : tail_byte _ |- _ => unfold tail_byte, byte_in in B end;
    unfold decode_rune, cont; decide_bytes; cbn [andb]; eexists; (split; [reflexivity|]); intros; try lia.
Qed.
Lemma decode_utf8 t r n : t <> [] -> decode_rune t = (r, n) -> ~ (r = RuneError /\ n = 1%nat) ->
  exists k t', t = k ++ t' /\ utf8_char k /\ n = List.length k.
Proof.
  intros Ne E V. destruct t as [|a t]; [contradiction|]. unfold decode_rune in E. pose proof (byte_val_lt a).
  repeat match type of E with
  | context [if ?b then _ else _] => let X := fresh "X" in destruct b eqn:X
  | context [match ?l with [] => _ | _ :: _ => _ end] => destruct l
  end; inversion E; subst; try (exfalso; apply V; split; reflexivity).
  all: repeat match goal with
       | X : (_ && _) = true |- _ => apply andb_true_iff in X; destruct X
       | X : cont _ _ _ = true |- _ => apply cont_bytein in X
       | X : (_ <=? _) = true |- _ => apply N.leb_le in X
       | X : (_ <? _) = true |- _ => apply N.ltb_lt in X
       end.
  all: repeat match goal with
       | X : (_ =? _) = true |- _ => apply N.eqb_eq in X
       | X : (_ =? _) = false |- _ => apply N.eqb_neq in X
       end.
  all: unfold byte_in in *.
  all: match goal with
       | |- exists k t', [?a] ++ ?t = _ /\ _ => idtac
       | |- exists k t', _ = _ /\ _ /\ 1%nat = _ => exists [a], t
       | |- exists k t', ?a :: ?b :: ?t = _ /\ _ /\ 2%nat = _ => exists [a; b], t
       | |- exists k t', ?a :: ?b :: ?c :: ?t = _ /\ _ /\ 3%nat = _ => exists [a; b; c], t
       | |- exists k t', ?a :: ?b :: ?c :: ?d :: ?t = _ /\ _ /\ 4%nat = _ => exists [a; b; c; d], t
       end.
  all: split; [reflexivity|]; split; [|reflexivity].
  all: first
    [ solve [apply utf8_1; unfold byte_in; lia]
    | solve [apply utf8_2; unfold tail_byte, byte_in; lia]
    | solve [apply utf8_3a; unfold tail_byte, byte_in; lia]
    | solve [apply utf8_3c; unfold tail_byte, byte_in; lia]
    | solve [destruct (N.ltb_spec (byte_val a) 237);
             [apply utf8_3b|apply utf8_3d]; unfold tail_byte, byte_in; lia]
    | solve [apply utf8_4a; unfold tail_byte, byte_in; lia]
    | solve [apply utf8_4b; unfold tail_byte, byte_in; lia]
    | solve [apply utf8_4c; unfold tail_byte, byte_in; lia] ].
Qed.

Lemma utf8_first t : utf8 t -> t <> [] -> exists k r, t = k ++ r /\ utf8_char k /\ utf8 r /\
  first_bytes t = k /\ after_rune t = r.
Proof.
  intros H N. destruct H as [|k r K R]; [contradiction|]. exists k, r. split; [reflexivity|]. split; [exact K|]. split; [exact R|].
  destruct (utf8_decode k r K) as [x [E _]]. unfold first_bytes, after_rune. rewrite E. cbn [snd].
  rewrite firstn_app, skipn_app, Nat.sub_diag, firstn_all, skipn_all. cbn. rewrite app_nil_r. auto.
Qed.
Lemma utf8_first_valid t : utf8 t -> ~ (first_rune t = RuneError /\ snd (decode_rune t) = 1%nat).
Proof.
  intros H. destruct H as [|k r K R]; [cbn; lia|]. destruct (utf8_decode k r K) as [x [E L]].
  unfold first_rune. rewrite E. cbn [fst snd]. intros [-> E1]. apply L in E1. unfold RuneError in E1. lia.
Qed.

(** * From the engine to the semantics *)
Section Agree.
  Context {A : Type}.
  Variable run_action : A -> text -> env -> ares.
  Variable grammar : text -> option (pexpr A).
  Variable data : text.
  Notation PE := (parse_expr run_action grammar).
  Notation SL := (star_loop run_action grammar).
  Notation sem := (sem run_action grammar).
  Hypothesis grammar_lits : forall n b, grammar n = Some b -> ascii_lits b = true.

  Lemma slice_consumed p s : Reach data p -> Reach data (pt s) -> sliceFrom p s = consumed (rest p) (rest (pt s)).
  Proof.
    intros R R'. apply Reach_rest in R, R'. destruct R as [R L], R' as [R' L'].
    unfold sliceFrom, consumed. f_equal. rewrite R, R', !skipn_length, N2Nat.inj_sub. lia.
  Qed.

  Lemma lit_loop_match rule rs : forall s b s', forallb (fun r => r <? 128) rs = true -> Inv data s ->
    lit_loop rule rs s = (b, s') -> lit_match rs (rest (pt s)) = if b then Some (rest (pt s')) else None.
  Proof.
    induction rs as [|r rs IH]; intros s b s' L I E; cbn [lit_loop] in E.
    - inversion E; subst. reflexivity.
    - cbn in L. apply andb_true_iff in L. destruct L as [Lr L]. apply N.ltb_lt in Lr.
      pose proof (Reach_decoded _ _ (inv_pt _ _ I)) as D.
      assert (R : rest (pt s) <> [] -> Inv data (read (Some rule) s)) by (apply read_inv; exact I).
      assert (RR : rest (pt (read (Some rule) s)) = skipn (w (pt s)) (rest (pt s))) by (rewrite read_pt_eq; apply read_pt_rest).
      destruct (rest (pt s)) as [|c t] eqn:T.
      + rewrite decode_nil in D. inversion D as [[D1 D2]].
        destruct (N.eqb_spec (rn (pt s)) r) as [X|X]; [rewrite <- D1 in X; unfold RuneError in X; lia|].
        inversion E; subst. reflexivity.
      + cbn [lit_match]. destruct (N.eqb_spec (rn (pt s)) r) as [X|X].
        * subst r. destruct (decode_small c t _ _ D Lr) as (D1 & D2 & _). rewrite <- D1, N.eqb_refl.
          apply IH in E; [|exact L|apply R; discriminate]. rewrite RR, D2 in E. cbn [skipn] in E. exact E.
        * destruct (N.eqb_spec (byte_val c) r) as [Y|Y].
          { exfalso. subst r. rewrite (decode_ascii c t Lr) in D. inversion D; congruence. }
          { inversion E; subst. reflexivity. }
  Qed.

  Lemma grows_clean n rule e en s v ok en' s' : ascii_lits e = true -> Inv data s ->
    PE n rule e en s = PRes v ok en' s' -> Inv data s' /\ (errs s' = [] -> errs s = []) /\ (ok = false -> pt s' = pt s).
  Proof.
    intros L I E. pose proof (parse_effect run_action grammar data grammar_lits n rule e en s L I) as H.
    rewrite E in H. cbn in H. destruct H as (H1 & H2 & _ & H3). split; [exact H1|]. split; [|exact H3].
    intros N. eapply grows_nil; eauto.
  Qed.

  Lemma parse_lit_sem rule rs want en s x ok s' : forallb (fun r => r <? 128) rs = true -> Inv data s ->
    parse_lit rule rs want s = (x, ok, s') ->
    sem (PLit rs want) en (rest (pt s)) (if ok then Good x en (rest (pt s')) else Fail) /\ (ok = false -> x = VNil).
  Proof.
    intros L I E. unfold parse_lit in E. destruct (lit_loop rule rs s) as [b s1] eqn:E1.
    pose proof (lit_loop_match rule rs s b s1 L I E1) as M.
    destruct (lit_loop_effect data rule rs s b s1 L I E1) as (I1 & _).
    destruct b; inversion E; subst; (split; [|auto; discriminate]).
    - destruct (failAt_core true (pos (pt s)) want s1) as [C _].
      rewrite slice_consumed; [|apply I|rewrite C; apply I1]. rewrite C. apply sem_lit. exact M.
    - apply sem_lit_fail. exact M.
  Qed.
  Lemma step_rest m rule s : pt (failAt true (pos (pt s)) m (read (Some rule) s)) = read_pt (pt s).
  Proof. destruct (failAt_core true (pos (pt s)) m (read (Some rule) s)) as [C _]. rewrite C. apply read_pt_eq. Qed.
  Lemma step_sem m rule s : Inv data s -> rest (pt s) <> [] ->
    sliceFrom (pt s) (failAt true (pos (pt s)) m (read (Some rule) s)) = first_bytes (rest (pt s)) /\
    rest (pt (failAt true (pos (pt s)) m (read (Some rule) s))) = after_rune (rest (pt s)).
  Proof.
    intros I H. pose proof (Reach_decoded _ _ (inv_pt _ _ I)) as D.
    assert (R : rest (read_pt (pt s)) = after_rune (rest (pt s))).
    { unfold after_rune. rewrite D. apply read_pt_rest. }
    split; [|rewrite step_rest; exact R].
    rewrite slice_consumed; [|apply I|rewrite step_rest; apply Reach_read; [apply I|exact H]].
    rewrite step_rest, R. rewrite <- (after_rune_suffix (rest (pt s))) at 1. apply consumed_app.
  Qed.
  Lemma parse_any_sem rule en s x ok s' : Inv data s -> parse_any rule s = (x, ok, s') ->
    sem PAny en (rest (pt s)) (if ok then Good x en (rest (pt s')) else Fail) /\ (ok = false -> x = VNil).
  Proof.
    intros I E. unfold parse_any in E. destruct (at_eof (pt s)) eqn:F; injection E as <- <- <-; (split; [|auto; discriminate]).
    - apply (Reach_eof data) in F; [|apply I]. rewrite F. apply sem_any_fail.
    - assert (N : rest (pt s) <> []) by (eapply not_eof; eauto).
      destruct (step_sem ["."%char] rule s I N) as [-> ->]. apply sem_any. exact N.
  Qed.
  Lemma parse_class_sem rule v cs rs inv en s x ok s' : Inv data s -> parse_class rule v cs rs inv s = (x, ok, s') ->
    sem (PClass v cs rs inv) en (rest (pt s)) (if ok then Good x en (rest (pt s')) else Fail) /\ (ok = false -> x = VNil).
  Proof.
    intros I E. unfold parse_class in E. destruct (at_eof (pt s)) eqn:F.
    - inversion E; subst. split; [|auto]. apply (Reach_eof data) in F; [|apply I]. apply sem_class_fail. auto.
    - assert (N : rest (pt s) <> []) by (eapply not_eof; eauto).
      assert (C : in_class cs rs inv (first_rune (rest (pt s))) =
        xorb (existsb (N.eqb (rn (pt s))) cs || existsb (fun '(lo, hi) => (lo <=? rn (pt s)) && (rn (pt s) <=? hi)) rs) inv).
      { unfold in_class, first_rune. rewrite (Reach_decoded _ _ (inv_pt _ _ I)). reflexivity. }
      destruct (xorb _ _); injection E as <- <- <-; (split; [|auto; discriminate]).
      + destruct (step_sem v rule s I N) as [-> ->]. apply sem_class; assumption.
      + apply sem_class_fail. auto.
  Qed.

  Lemma engine_sem n :
    (forall rule e en s v ok en' s', ascii_lits e = true -> Inv data s -> PE n rule e en s = PRes v ok en' s' ->
       errs s' = [] -> sem e en (rest (pt s)) (if ok then Good v en' (rest (pt s')) else Fail) /\ (ok = false -> v = VNil)) /\
    (forall rule e vals s vs ok en' s', ascii_lits e = true -> Inv data s -> SL n rule e vals s = PRes (VSlice vs) ok en' s' ->
       errs s' = [] -> exists l, vs = vals ++ l /\ sem_rep run_action grammar e (rest (pt s)) l (rest (pt s'))).
  Proof.
    induction n as [|n [IHe IHs]]; [split; discriminate|]. split.
    - intros rule e en s v ok en' s' L I E N.
      destruct e as [a e|es|l e|es|e|e|e|e|name|rs want|cv cs rs inv|]; cbn [ascii_lits] in L; revert E; step_engine; intros E.
      + destruct (PE n rule e en s) as [|m rl s3|v3 [] en3 s3] eqn:E3; try discriminate.
        * destruct (grows_clean _ _ _ _ _ _ _ _ _ L I E3) as (I3 & _).
          rewrite slice_consumed in E; [|apply I|apply I3].
          destruct (run_action a _ en3) eqn:Ra; inversion E; subst.
          { split; [|discriminate]. eapply sem_action; [|exact Ra]. apply (IHe _ _ _ _ _ _ _ _ L I E3 N). }
          { cbn in N. destruct (errs s3); discriminate. }
        * inversion E; subst. destruct (IHe _ _ _ _ _ _ _ _ L I E3 N) as [S V]. split; [apply sem_action_fail; exact S|exact V].
      + assert (G : sem_alts run_action grammar es en (rest (pt s)) (if ok then Good v en' (rest (pt s')) else Fail) /\ (ok = false -> v = VNil)).
        { revert s I E. induction es as [|e es IHes]; intros s I E; cbn [choice_loop] in E.
          - inversion E; subst. split; [constructor|auto].
          - cbn in L. apply andb_true_iff in L. destruct L as [Le L].
            destruct (PE n rule e [] s) as [|m rl s3|v3 [] en3 s3] eqn:E3; try discriminate.
            + inversion E; subst. destruct (IHe _ _ _ _ _ _ _ _ Le I E3 N) as [S _]. split; [|discriminate].
              eapply alts_good; exact S.
            + destruct (grows_clean _ _ _ _ _ _ _ _ _ Le I E3) as (I3 & _ & P3).
              pose proof (choice_effect run_action grammar data n rule es
                (fun rule e en s => parse_effect run_action grammar data grammar_lits n rule e en s) L en s3 I3) as F.
              rewrite E in F. cbn in F. destruct F as (_ & G & _).
              assert (N3 : errs s3 = []) by (eapply grows_nil; eauto).
              destruct (IHe _ _ _ _ _ _ _ _ Le I E3 N3) as [S _].
              destruct (IHes L s3 I3 E) as [Ss V]. rewrite (P3 eq_refl) in Ss. split; [|exact V].
              apply alts_fail; assumption. }
        destruct G as [G V]. split; [apply sem_choice; exact G|exact V].
      + destruct (PE n rule e [] s) as [|m rl s3|v3 [] en3 s3] eqn:E3; try discriminate; inversion E; subst;
          destruct (IHe _ _ _ _ _ _ _ _ L I E3 N) as [S V].
        * split; [|discriminate]. eapply sem_label; exact S.
        * split; [|exact V]. apply sem_label_fail; exact S.
      + assert (G : forall es, forallb ascii_lits es = true -> forall vals en s sp, Inv data s ->
          seq_loop (PE n rule) sp es vals en s = PRes v ok en' s' ->
          sem_seq run_action grammar es vals en (rest (pt s)) (if ok then Good v en' (rest (pt s')) else Fail) /\
          (ok = false -> v = VNil) /\ errs s = []).
        { clear E L I es en s. induction es as [|e es IHes]; intros L vals en s sp I E; cbn [seq_loop] in E.
          - inversion E; subst. split; [constructor|]. split; [discriminate|exact N].
          - cbn in L. apply andb_true_iff in L. destruct L as [Le L].
            destruct (PE n rule e en s) as [|m rl s3|v3 [] en3 s3] eqn:E3; try discriminate;
              destruct (grows_clean _ _ _ _ _ _ _ _ _ Le I E3) as (I3 & N3 & P3).
            + destruct (IHes L _ _ _ _ I3 E) as (S & V & M). destruct (IHe _ _ _ _ _ _ _ _ Le I E3 M) as [S3 _].
              split; [eapply seq_cons; eauto|]. auto.
            + inversion E; subst. rewrite restore_errs in N. destruct (IHe _ _ _ _ _ _ _ _ Le I E3 N) as [S3 _].
              split; [apply seq_fail; exact S3|]. auto. }
        destruct (G es L _ _ _ _ I E) as (S & V & _). split; [apply sem_sequence; exact S|exact V].
      + destruct (PE n rule e [] (set_invert (negb (fail_invert s)) s)) as [|m rl s3|v3 ok3 en3 s3] eqn:E3; try discriminate.
        pose proof (set_invert_inv data (negb (fail_invert s)) s I) as I'.
        destruct (grows_clean _ _ _ _ _ _ _ _ _ L I' E3) as (I3 & N3 & P3).
        inversion E; subst. rewrite restore_errs in N. cbn in N.
        destruct (IHe _ _ _ _ _ _ _ _ L I' E3 N) as [S _]. cbn [pt set_invert] in S.
        rewrite (restore_pt data); [|apply I3|apply I].
        destruct ok3; cbn [negb]; split; auto; try discriminate.
        * eapply sem_not; exact S.
        * apply sem_not_fail; exact S.
      + destruct (PE n rule e [] s) as [|m rl s3|v3 ok3 en3 s3] eqn:E3; try discriminate; inversion E; subst.
        destruct (IHe _ _ _ _ _ _ _ _ L I E3 N) as [S V]. split; [|discriminate]. destruct ok3.
        * eapply sem_opt; exact S.
        * rewrite (V eq_refl). destruct (grows_clean _ _ _ _ _ _ _ _ _ L I E3) as (_ & _ & P3). rewrite (P3 eq_refl).
          apply sem_opt_fail; exact S.
      + destruct (star_effect run_action grammar data grammar_lits n rule e [] s L I) as [_ X].
        destruct (SL n rule e [] s) as [|m rl s3|v3 ok3 en3 s3] eqn:E3; try discriminate.
        destruct (X v3 ok3 en3 s3 eq_refl) as [-> [l [-> _]]]. inversion E; subst.
        destruct (IHs _ _ _ _ _ _ _ _ L I E3 N) as [l' [El S]]. cbn [app] in *. subst l'. split; [|discriminate].
        apply sem_star. exact S.
      + destruct (star_effect run_action grammar data grammar_lits n rule e [] s L I) as [_ X].
        destruct (SL n rule e [] s) as [|m rl s3|v3 ok3 en3 s3] eqn:E3; try discriminate.
        destruct (X v3 ok3 en3 s3 eq_refl) as [-> [l [-> P]]]. cbn [app] in *. destruct l as [|v0 l]; inversion E; subst.
        * destruct (IHs _ _ _ _ _ _ _ _ L I E3 N) as [l' [El S]]. cbn in El. subst l'. split; [|auto].
          eapply sem_plus_fail; exact S.
        * destruct (IHs _ _ _ _ _ _ _ _ L I E3 N) as [l' [El S]]. cbn in El. subst l'. split; [|discriminate].
          apply sem_plus. exact S.
      + destruct (grammar name) as [b|] eqn:Gr.
        * destruct (PE n name b [] s) as [|m rl s3|v3 ok3 en3 s3] eqn:E3; try discriminate; inversion E; subst.
          destruct (IHe _ _ _ _ _ _ _ _ (grammar_lits _ _ Gr) I E3 N) as [S V]. split; [|exact V]. destruct ok.
          { eapply sem_ref; eauto. } { eapply sem_ref_fail; eauto. }
        * inversion E; subst. cbn in N. destruct (errs s); discriminate.
      + destruct (parse_lit rule rs want s) as [[x ok1] s1] eqn:E1. inversion E; subst. eapply parse_lit_sem; eauto.
      + destruct (parse_class rule cv cs rs inv s) as [[x ok1] s1] eqn:E1. inversion E; subst. eapply parse_class_sem; eauto.
      + destruct (parse_any rule s) as [[x ok1] s1] eqn:E1. inversion E; subst. eapply parse_any_sem; eauto.
    - intros rule e vals s vs ok en' s' L I E N. rewrite sl_S in E.
      destruct (PE n rule e [] s) as [|m rl s3|v3 [] en3 s3] eqn:E3; try discriminate;
        destruct (grows_clean _ _ _ _ _ _ _ _ _ L I E3) as (I3 & N3 & P3).
      + destruct (IHs _ _ _ _ _ _ _ _ L I3 E N) as [l [-> S]].
        destruct (star_effect run_action grammar data grammar_lits n rule e (vals ++ [v3]) s3 L I3) as [F _].
        rewrite E in F. cbn in F. destruct F as (_ & G & _).
        destruct (IHe _ _ _ _ _ _ _ _ L I E3 (grows_nil _ _ G N)) as [S3 _].
        exists (v3 :: l). rewrite <- app_assoc. split; [reflexivity|]. eapply rep_cons; eauto.
      + inversion E; subst. destruct (IHe _ _ _ _ _ _ _ _ L I E3 N) as [S _]. rewrite (P3 eq_refl).
        exists []. rewrite app_nil_r. split; [reflexivity|]. apply rep_nil. exact S.
  Qed.

  (** * From the semantics to the engine, on well-formed UTF-8 *)
  Hypothesis data_utf8 : utf8 data.

  Lemma reach_utf8 p : Reach data p -> utf8 (rest p) /\ invalid p = false.
  Proof.
    intros [i [-> B]].
    assert (U : utf8 (rest (pts data i))).
    { induction i as [|i IH]; cbn [pts].
      - rewrite read_pt_rest. exact data_utf8.
      - rewrite read_pt_rest. pose proof (pts_decoded data i) as D.
        assert (Ne : rest (pts data i) <> []) by (apply B; lia).
        destruct (utf8_first (rest (pts data i))) as (k & r & E & _ & R & _ & F); [apply IH; intros j Hj; apply B; lia|exact Ne|].
        unfold after_rune in F. rewrite D in F. cbn [snd] in F. rewrite F. exact R. }
    split; [exact U|]. apply utf8_first_valid in U. unfold first_rune in U. rewrite pts_decoded in U. cbn [fst snd] in U.
    unfold invalid. destruct (N.eqb_spec (rn (pts data i)) RuneError), (Nat.eqb_spec (w (pts data i)) 1); auto. tauto.
  Qed.
  Lemma read_errs r s : Inv data s -> rest (pt s) <> [] -> errs (read r s) = errs s.
  Proof.
    intros I H. unfold read. destruct (reach_utf8 (read_pt (pt s))) as [_ V]; [apply Reach_read; [apply I|exact H]|].
    unfold invalid in V. rewrite V. reflexivity.
  Qed.
  Lemma lit_loop_errs rule rs : forall s b s', forallb (fun r => r <? 128) rs = true -> Inv data s ->
    lit_loop rule rs s = (b, s') -> errs s' = errs s.
  Proof.
    induction rs as [|r rs IH]; intros s b s' L I E; cbn [lit_loop] in E; [inversion E; reflexivity|].
    cbn in L. apply andb_true_iff in L. destruct L as [Lr L]. apply N.ltb_lt in Lr.
    destruct (N.eqb_spec (rn (pt s)) r) as [X|X]; [|inversion E; reflexivity].
    assert (H : rest (pt s) <> []).
    { intros H. pose proof (Reach_decoded _ _ (inv_pt _ _ I)) as D. rewrite H, decode_nil in D. inversion D as [[D1 D2]].
      rewrite <- D1 in X. unfold RuneError in X. lia. }
    apply IH in E; [|exact L|apply read_inv; assumption]. rewrite E. apply read_errs; assumption.
  Qed.

  Definition agrees (e : pexpr A) (en : env) (t : text) (o : out) : Prop :=
    forall n rule s, ascii_lits e = true -> Inv data s -> rest (pt s) = t -> errs s = [] ->
      PE n rule e en s <> OutOfFuel ->
      exists v ok en' s', PE n rule e en s = PRes v ok en' s' /\ Inv data s' /\ errs s' = [] /\
        o = (if ok then Good v en' (rest (pt s')) else Fail) /\ (ok = false -> pt s' = pt s).
  Lemma settle e en t o n rule s v ok en' s' : sem e en t o -> ascii_lits e = true -> Inv data s -> rest (pt s) = t ->
    PE n rule e en s = PRes v ok en' s' -> errs s' = [] ->
    exists v ok en' s', PE n rule e en s = PRes v ok en' s' /\ Inv data s' /\ errs s' = [] /\
        o = (if ok then Good v en' (rest (pt s')) else Fail) /\ (ok = false -> pt s' = pt s).
  Proof.
    intros H L I T E N. exists v, ok, en', s'. destruct (grows_clean _ _ _ _ _ _ _ _ _ L I E) as (I' & _ & P).
    split; [exact E|]. split; [exact I'|]. split; [exact N|]. split; [|exact P].
    destruct (proj1 (engine_sem n) _ _ _ _ _ _ _ _ L I E N) as [S _]. rewrite T in S.
    eapply (proj1 (sem_fun _ _)); eauto.
  Qed.

  Lemma sem_engine :
    (forall e en t o, sem e en t o -> agrees e en t o) /\
    (forall es en t o, sem_alts run_action grammar es en t o ->
       forall n rule s, forallb ascii_lits es = true -> Inv data s -> rest (pt s) = t -> errs s = [] ->
       choice_loop (PE n rule) es en s <> OutOfFuel ->
       exists v ok en' s', choice_loop (PE n rule) es en s = PRes v ok en' s' /\ errs s' = []) /\
    (forall es vals en t o, sem_seq run_action grammar es vals en t o ->
       forall n rule s sp, forallb ascii_lits es = true -> Inv data s -> rest (pt s) = t -> errs s = [] ->
       seq_loop (PE n rule) sp es vals en s <> OutOfFuel ->
       exists v ok en' s', seq_loop (PE n rule) sp es vals en s = PRes v ok en' s' /\ errs s' = []) /\
    (forall e t vs r, sem_rep run_action grammar e t vs r ->
       forall n rule s vals, ascii_lits e = true -> Inv data s -> rest (pt s) = t -> errs s = [] ->
       SL n rule e vals s <> OutOfFuel ->
       exists v ok en' s', SL n rule e vals s = PRes v ok en' s' /\ errs s' = []).
  Proof.
    assert (SUB : forall e en n rule s o, sem e en (rest (pt s)) o -> agrees e en (rest (pt s)) o -> ascii_lits e = true ->
      Inv data s -> errs s = [] -> PE n rule e en s <> OutOfFuel ->
      exists v ok en' s', PE n rule e en s = PRes v ok en' s' /\ Inv data s' /\ errs s' = [] /\
        o = (if ok then Good v en' (rest (pt s')) else Fail) /\ (ok = false -> pt s' = pt s)).
    { intros e en n rule s o _ H L I N F. apply H; auto. }
    apply sem_mutind.
    all: try (intros; intros n rule s L I T N F; subst; destruct n as [|n]; [contradiction|];
              cbn [ascii_lits] in L; eapply settle; [econstructor; eassumption|exact L|exact I|reflexivity|..]; fail).
    all: unfold agrees in *.
    - intros a e en t v en' r v' S IH Ra n rule s L I T N F. destruct n as [|n]; [contradiction|]. cbn [ascii_lits] in L.
      rewrite pe_action in F.
      destruct (IH n rule s L I T N) as (v1 & ok1 & en1 & s1 & E1 & I1 & N1 & O1 & P1).
      { intros X. rewrite X in F. contradiction. }
      destruct ok1; [|discriminate]. inversion O1; subst. clear O1.
      eapply (settle (PAction a e)); [eapply sem_action; eassumption|exact L|exact I|reflexivity| |exact N1].
      rewrite pe_action, E1, slice_consumed; [|apply I|apply I1]. rewrite Ra. reflexivity.
    - intros a e en t S IH n rule s L I T N F. destruct n as [|n]; [contradiction|]. cbn [ascii_lits] in L.
      rewrite pe_action in F.
      destruct (IH n rule s L I T N) as (v1 & ok1 & en1 & s1 & E1 & I1 & N1 & O1 & P1).
      { intros X. rewrite X in F. contradiction. }
      destruct ok1; [discriminate|].
      eapply (settle (PAction a e)); [eapply sem_action_fail; eassumption|exact L|exact I|exact T| |exact N1].
      rewrite pe_action, E1. reflexivity.
    - intros es en t o S IH n rule s L I T N F. destruct n as [|n]; [contradiction|]. cbn [ascii_lits] in L.
      rewrite pe_choice in F. destruct (IH n rule s L I T N F) as (v1 & ok1 & en1 & s1 & E1 & N1).
      eapply (settle (PChoice es)); [apply sem_choice; exact S|exact L|exact I|exact T|rewrite pe_choice; exact E1|exact N1].
    - intros l e en t v en' r S IH n rule s L I T N F. destruct n as [|n]; [contradiction|]. cbn [ascii_lits] in L.
      rewrite pe_label in F.
      destruct (IH n rule s L I T N) as (v1 & ok1 & en1 & s1 & E1 & I1 & N1 & O1 & P1).
      { intros X. rewrite X in F. contradiction. }
      destruct ok1; [|discriminate].
      eapply (settle (PLabel l e)); [eapply sem_label; eassumption|exact L|exact I|exact T| |exact N1].
      rewrite pe_label, E1. reflexivity.
    - intros l e en t S IH n rule s L I T N F. destruct n as [|n]; [contradiction|]. cbn [ascii_lits] in L.
      rewrite pe_label in F.
      destruct (IH n rule s L I T N) as (v1 & ok1 & en1 & s1 & E1 & I1 & N1 & O1 & P1).
      { intros X. rewrite X in F. contradiction. }
      destruct ok1; [discriminate|].
      eapply (settle (PLabel l e)); [eapply sem_label_fail; eassumption|exact L|exact I|exact T| |exact N1].
      rewrite pe_label, E1. reflexivity.
    - intros es en t o S IH n rule s L I T N F. destruct n as [|n]; [contradiction|]. cbn [ascii_lits] in L.
      rewrite pe_seq in F. destruct (IH n rule s (pt s) L I T N F) as (v1 & ok1 & en1 & s1 & E1 & N1).
      eapply (settle (PSeq es)); [apply sem_sequence; exact S|exact L|exact I|exact T|rewrite pe_seq; exact E1|exact N1].
    - intros e en t v en' r S IH n rule s L I T N F. destruct n as [|n]; [contradiction|]. cbn [ascii_lits] in L.
      rewrite pe_not in F. 
      destruct (IH n rule (set_invert (negb (fail_invert s)) s) L (set_invert_inv _ _ _ I) T N) as (v1 & ok1 & en1 & s1 & E1 & I1 & N1 & O1 & P1).
      { intros X. rewrite X in F. contradiction. }
      eapply (settle (PNot e)); [eapply sem_not; eassumption|exact L|exact I|exact T|rewrite pe_not, E1; reflexivity|].
      rewrite restore_errs. exact N1.
    - intros e en t S IH n rule s L I T N F. destruct n as [|n]; [contradiction|]. cbn [ascii_lits] in L.
      rewrite pe_not in F.
      destruct (IH n rule (set_invert (negb (fail_invert s)) s) L (set_invert_inv _ _ _ I) T N) as (v1 & ok1 & en1 & s1 & E1 & I1 & N1 & O1 & P1).
      { intros X. rewrite X in F. contradiction. }
      eapply (settle (PNot e)); [eapply sem_not_fail; eassumption|exact L|exact I|exact T|rewrite pe_not, E1; reflexivity|].
      rewrite restore_errs. exact N1.
    - intros e en t v en' r S IH n rule s L I T N F. destruct n as [|n]; [contradiction|]. cbn [ascii_lits] in L.
      rewrite pe_opt in F.
      destruct (IH n rule s L I T N) as (v1 & ok1 & en1 & s1 & E1 & I1 & N1 & O1 & P1).
      { intros X. rewrite X in F. contradiction. }
      eapply (settle (POpt e)); [eapply sem_opt; eassumption|exact L|exact I|exact T|rewrite pe_opt, E1; reflexivity|exact N1].
    - intros e en t S IH n rule s L I T N F. destruct n as [|n]; [contradiction|]. cbn [ascii_lits] in L.
      rewrite pe_opt in F.
      destruct (IH n rule s L I T N) as (v1 & ok1 & en1 & s1 & E1 & I1 & N1 & O1 & P1).
      { intros X. rewrite X in F. contradiction. }
      eapply (settle (POpt e)); [eapply sem_opt_fail; eassumption|exact L|exact I|exact T|rewrite pe_opt, E1; reflexivity|exact N1].
    - intros e en t vs r S IH n rule s L I T N F. destruct n as [|n]; [contradiction|]. cbn [ascii_lits] in L.
      rewrite pe_star in F. destruct (IH n rule s [] L I T N) as (v1 & ok1 & en1 & s1 & E1 & N1).
      { intros X. rewrite X in F. contradiction. }
      eapply (settle (PStar e)); [apply sem_star; exact S|exact L|exact I|exact T|rewrite pe_star, E1; reflexivity|exact N1].
    - intros e en t v vs r S IH n rule s L I T N F. destruct n as [|n]; [contradiction|]. cbn [ascii_lits] in L.
      rewrite pe_plus in F. destruct (IH n rule s [] L I T N) as (v1 & ok1 & en1 & s1 & E1 & N1).
      { intros X. rewrite X in F. contradiction. }
      destruct (star_effect run_action grammar data grammar_lits n rule e [] s L I) as [_ X].
      destruct (X _ _ _ _ E1) as [-> [l [-> _]]]. cbn [app] in *. destruct l as [|v0 l];
      (eapply (settle (PPlus e)); [eapply sem_plus; exact S|exact L|exact I|exact T|rewrite pe_plus, E1; reflexivity|exact N1]).
    - intros e en t r S IH n rule s L I T N F. destruct n as [|n]; [contradiction|]. cbn [ascii_lits] in L.
      rewrite pe_plus in F. destruct (IH n rule s [] L I T N) as (v1 & ok1 & en1 & s1 & E1 & N1).
      { intros X. rewrite X in F. contradiction. }
      destruct (star_effect run_action grammar data grammar_lits n rule e [] s L I) as [_ X].
      destruct (X _ _ _ _ E1) as [-> [l [-> _]]]. cbn [app] in *. destruct l as [|v0 l];
      (eapply (settle (PPlus e)); [eapply sem_plus_fail; exact S|exact L|exact I|exact T|rewrite pe_plus, E1; reflexivity|exact N1]).
    - intros name b en t v en' r Gr S IH n rule s L I T N F. destruct n as [|n]; [contradiction|].
      rewrite pe_ref, Gr in F. destruct (IH n name s (grammar_lits _ _ Gr) I T N) as (v1 & ok1 & en1 & s1 & E1 & I1 & N1 & O1 & P1).
      { intros X. rewrite X in F. contradiction. }
      eapply (settle (PRef name)); [eapply sem_ref; eassumption|exact L|exact I|exact T|rewrite pe_ref, Gr, E1; reflexivity|exact N1].
    - intros name b en t Gr S IH n rule s L I T N F. destruct n as [|n]; [contradiction|].
      rewrite pe_ref, Gr in F. destruct (IH n name s (grammar_lits _ _ Gr) I T N) as (v1 & ok1 & en1 & s1 & E1 & I1 & N1 & O1 & P1).
      { intros X. rewrite X in F. contradiction. }
      eapply (settle (PRef name)); [eapply sem_ref_fail; eassumption|exact L|exact I|exact T|rewrite pe_ref, Gr, E1; reflexivity|exact N1].
    - intros rs want en t r M n rule s L I T N F. destruct n as [|n]; [contradiction|]. cbn [ascii_lits] in L.
      destruct (parse_lit rule rs want s) as [[x ok1] s1] eqn:E1.
      eapply (settle (PLit rs want)); [apply sem_lit; exact M|exact L|exact I|exact T|rewrite pe_lit, E1; reflexivity|].
      unfold parse_lit in E1. destruct (lit_loop rule rs s) as [b s2] eqn:E2. pose proof (lit_loop_errs _ _ _ _ _ L I E2) as X.
      destruct b; injection E1 as <- <- <-; rewrite ?restore_errs, (proj2 (failAt_core _ _ _ _)); congruence.
    - intros rs want en t M n rule s L I T N F. destruct n as [|n]; [contradiction|]. cbn [ascii_lits] in L.
      destruct (parse_lit rule rs want s) as [[x ok1] s1] eqn:E1.
      eapply (settle (PLit rs want)); [apply sem_lit_fail; exact M|exact L|exact I|exact T|rewrite pe_lit, E1; reflexivity|].
      unfold parse_lit in E1. destruct (lit_loop rule rs s) as [b s2] eqn:E2. pose proof (lit_loop_errs _ _ _ _ _ L I E2) as X.
      destruct b; injection E1 as <- <- <-; rewrite ?restore_errs, (proj2 (failAt_core _ _ _ _)); congruence.
    - intros v cs rs inv en t Ne M n rule s L I T N F. destruct n as [|n]; [contradiction|].
      destruct (parse_class rule v cs rs inv s) as [[x ok1] s1] eqn:E1.
      eapply (settle (PClass v cs rs inv)); [apply sem_class; assumption|exact L|exact I|exact T|rewrite pe_class, E1; reflexivity|].
      unfold parse_class in E1. destruct (at_eof (pt s)) eqn:Ef; [|destruct (xorb _ _)]; injection E1 as <- <- <-;
        rewrite (proj2 (failAt_core _ _ _ _)), ?read_errs; auto. eapply not_eof; eauto.
    - intros v cs rs inv en t M n rule s L I T N F. destruct n as [|n]; [contradiction|].
      destruct (parse_class rule v cs rs inv s) as [[x ok1] s1] eqn:E1.
      eapply (settle (PClass v cs rs inv)); [apply sem_class_fail; exact M|exact L|exact I|exact T|rewrite pe_class, E1; reflexivity|].
      unfold parse_class in E1. destruct (at_eof (pt s)) eqn:Ef; [|destruct (xorb _ _)]; injection E1 as <- <- <-;
        rewrite (proj2 (failAt_core _ _ _ _)), ?read_errs; auto. eapply not_eof; eauto.
    - intros en t Ne n rule s L I T N F. destruct n as [|n]; [contradiction|].
      destruct (parse_any rule s) as [[x ok1] s1] eqn:E1.
      eapply (settle PAny); [apply sem_any; assumption|exact L|exact I|exact T|rewrite pe_any, E1; reflexivity|].
      unfold parse_any in E1. destruct (at_eof (pt s)) eqn:Ef; injection E1 as <- <- <-;
        rewrite (proj2 (failAt_core _ _ _ _)), ?read_errs; auto. eapply not_eof; eauto.
    - intros en n rule s L I T N F. destruct n as [|n]; [contradiction|].
      destruct (parse_any rule s) as [[x ok1] s1] eqn:E1.
      eapply (settle PAny); [apply sem_any_fail|exact L|exact I|exact T|rewrite pe_any, E1; reflexivity|].
      unfold parse_any in E1. destruct (at_eof (pt s)) eqn:Ef; injection E1 as <- <- <-;
        rewrite (proj2 (failAt_core _ _ _ _)), ?read_errs; auto. eapply not_eof; eauto.
    - intros en t n rule s L I T N F. cbn [choice_loop] in *. eauto 6.
    - intros e es en t v en' r S IH n rule s L I T N F. cbn [choice_loop] in *.
      cbn in L. apply andb_true_iff in L. destruct L as [Le L].
      destruct (IH n rule s Le I T N) as (v1 & ok1 & en1 & s1 & E1 & I1 & N1 & O1 & P1).
      { intros X. rewrite X in F. contradiction. }
      destruct ok1; [|discriminate]. rewrite E1. eauto 6.
    - intros e es en t o S IH Ss IHs n rule s L I T N F. cbn [choice_loop] in *.
      cbn in L. apply andb_true_iff in L. destruct L as [Le L].
      destruct (IH n rule s Le I T N) as (v1 & ok1 & en1 & s1 & E1 & I1 & N1 & O1 & P1).
      { intros X. rewrite X in F. contradiction. }
      destruct ok1; [discriminate|]. rewrite E1 in *. apply IHs; auto. rewrite (P1 eq_refl). exact T.
    - intros vals en t n rule s sp L I T N F. cbn [seq_loop] in *. eauto 6.
    - intros e es vals en t v en' r o S IH Ss IHs n rule s sp L I T N F. cbn [seq_loop] in *.
      cbn in L. apply andb_true_iff in L. destruct L as [Le L].
      destruct (IH n rule s Le I T N) as (v1 & ok1 & en1 & s1 & E1 & I1 & N1 & O1 & P1).
      { intros X. rewrite X in F. contradiction. }
      destruct ok1; [|discriminate]. inversion O1; subst. rewrite E1 in *. apply IHs; auto.
    - intros e es vals en t S IH n rule s sp L I T N F. cbn [seq_loop] in *.
      cbn in L. apply andb_true_iff in L. destruct L as [Le L].
      destruct (IH n rule s Le I T N) as (v1 & ok1 & en1 & s1 & E1 & I1 & N1 & O1 & P1).
      { intros X. rewrite X in F. contradiction. }
      destruct ok1; [discriminate|]. rewrite E1. do 4 eexists. split; [reflexivity|]. rewrite restore_errs. exact N1.
    - intros e t S IH n rule s vals L I T N F. destruct n as [|n]; [contradiction|]. rewrite sl_S in *.
      destruct (IH n rule s L I T N) as (v1 & ok1 & en1 & s1 & E1 & I1 & N1 & O1 & P1).
      { intros X. rewrite X in F. contradiction. }
      destruct ok1; [discriminate|]. rewrite E1. eauto 6.
    - intros e t v en r vs r' S IH Ss IHs n rule s vals L I T N F. destruct n as [|n]; [contradiction|]. rewrite sl_S in *.
      destruct (IH n rule s L I T N) as (v1 & ok1 & en1 & s1 & E1 & I1 & N1 & O1 & P1).
      { intros X. rewrite X in F. contradiction. }
      destruct ok1; [|discriminate]. inversion O1; subst. rewrite E1 in *. apply IHs; auto.
  Qed.
End Agree.
