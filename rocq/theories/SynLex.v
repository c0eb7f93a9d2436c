(** The lexical expressions of the grammar match the lexical forms of SpecSyntax.v. *)
From Verif Require Import Text GoAst Ast Utf8 GoExpr Peg Grammar SpecPrint SpecSyntax PegPoints PegSem.
From Coq Require Import NArith Arith Bool Lia.

(** * Bytes *)
Lemma byte_val_inj a b : byte_val a = byte_val b -> a = b.
Proof. unfold byte_val. intros H. rewrite <- (ascii_N_embedding a), <- (ascii_N_embedding b), H. reflexivity. Qed.

(** The bytes of a rune: one byte below 128, or all at least 128. *)
Lemma decode_bytes c t r n : decode_rune (c :: t) = (r, n) -> (128 <= byte_val c)%N ->
  Forall (fun x => (128 <= byte_val x)%N) (firstn n (c :: t)) /\ (1 <= n)%nat.
Proof.
  intros E H. unfold decode_rune, cont in E.
  destruct (N.ltb_spec (byte_val c) 128); [lia|].
  repeat match type of E with
  | context [if ?b then _ else _] => let X := fresh "X" in destruct b eqn:X
  | context [match ?l with [] => _ | _ :: _ => _ end] => destruct l
  end; inversion E; subst; cbn [firstn]; (split; [|lia]);
  repeat match goal with
  | X : (_ && _)%bool = true |- _ => apply andb_true_iff in X; destruct X
  | X : (_ <=? _)%N = true |- _ => apply N.leb_le in X
  end; repeat constructor; try lia; try assumption;
  repeat match goal with H : context [if ?b then _ else _] |- _ => let X := fresh "X" in destruct b eqn:X end; try lia.
Qed.
Lemma after_ascii c t : (byte_val c < 128)%N -> first_rune (c :: t) = byte_val c /\ first_bytes (c :: t) = [c] /\ after_rune (c :: t) = t.
Proof. intros H. unfold first_rune, first_bytes, after_rune. rewrite (decode_ascii c t H). auto. Qed.
Lemma first_rune_ascii c t : (first_rune (c :: t) < 128)%N -> (byte_val c < 128)%N /\ first_rune (c :: t) = byte_val c.
Proof.
  unfold first_rune. destruct (decode_rune (c :: t)) as [r n] eqn:E. cbn [fst]. intros H.
  destruct (decode_small c t r n E H) as (A & _ & B). auto.
Qed.
(** Moving over one rune: at least one byte; an ASCII byte further on is not part of it. *)
Lemma after_rune_split c t : exists k, c :: t = k ++ after_rune (c :: t) /\ first_bytes (c :: t) = k /\
  ((byte_val c < 128)%N /\ k = [c] \/ Forall (fun x => (128 <= byte_val x)%N) k /\ k <> []).
Proof.
  exists (first_bytes (c :: t)). split; [symmetry; apply after_rune_suffix|]. split; [reflexivity|].
  destruct (N.ltb_spec (byte_val c) 128) as [H|H].
  - left. split; [exact H|]. apply (after_ascii c t H).
  - right. unfold first_bytes. destruct (decode_rune (c :: t)) as [r n] eqn:E.
    destruct (decode_bytes c t r n E H) as [F L]. split; [exact F|]. destruct n; [lia|]. discriminate.
Qed.

Section Lex.
  Variable gp : text -> res gexpr.
  Notation RUN := (run_action gp).
  Notation S := (sem RUN the_grammar).
  Notation SQ := (sem_seq RUN the_grammar).
  Notation SR := (sem_rep RUN the_grammar).

  Lemma S_fun e en t o o' : S e en t o -> S e en t o' -> o = o'.
  Proof. intros A B. eapply (proj1 (sem_fun _ _)); eauto. Qed.
  Lemma SR_fun e t vs r vs' r' : SR e t vs r -> SR e t vs' r' -> vs = vs' /\ r = r'.
  Proof. intros A B. eapply (proj2 (proj2 (proj2 (sem_fun _ _)))); eauto. Qed.

  (** * Literals *)
  Lemma lit_match_some k : forall t r, lit_match (map byte_val k) t = Some r <-> t = k ++ r.
  Proof.
    induction k as [|c k IH]; intros t r; cbn [map lit_match app].
    - split; intros H; [inversion H|subst]; reflexivity.
    - destruct t as [|c' t]; [split; discriminate|]. destruct (N.eqb_spec (byte_val c') (byte_val c)) as [E|E].
      + apply byte_val_inj in E. subst. rewrite IH. split; intros H; [subst|inversion H]; reflexivity.
      + split; [discriminate|]. intros H. inversion H; subst. congruence.
  Qed.
  Lemma lit_ok s want en r : S (lit s want) en (str s ++ r) (Good (VBytes (str s)) en r).
  Proof.
    unfold lit, runes. pose proof (sem_lit RUN the_grammar (map byte_val (str s)) (str want) en (str s ++ r) r) as H.
    rewrite consumed_app in H. apply H. apply lit_match_some. reflexivity.
  Qed.
  Lemma lit_inv s want en t v en' r : S (lit s want) en t (Good v en' r) -> t = str s ++ r /\ en' = en.
  Proof. intros H. inversion H; subst. unfold runes in *. rewrite lit_match_some in *. auto. Qed.
  Lemma lit_bad s want en t : (forall r, t <> str s ++ r) -> S (lit s want) en t Fail.
  Proof.
    intros H. apply sem_lit_fail. destruct (lit_match (runes s) t) eqn:E; [|reflexivity].
    unfold runes in E. apply lit_match_some in E. destruct (H _ E).
  Qed.
  Lemma lit_bad_inv s want en t : S (lit s want) en t Fail -> forall r, t <> str s ++ r.
  Proof. intros H r ->. inversion H; subst. unfold runes in *. rewrite (proj2 (lit_match_some _ _ r) eq_refl) in *. discriminate. Qed.
  (** By the first character. *)
  Lemma lit_bad1 c s want en t : not_next (eq c) t -> S (lit (String c s) want) en t Fail.
  Proof. intros H. apply lit_bad. intros r ->. apply (H c (str s ++ r)); reflexivity. Qed.

  (** * Character classes *)
  Definition ascii_class (cs : list N) (rs : list (N * N)) : bool :=
    forallb (fun x => x <? 128)%N cs && forallb (fun p => snd p <? 128)%N rs.
  Lemma ascii_class_small cs rs x : ascii_class cs rs = true -> in_class cs rs false x = true -> (x < 128)%N.
  Proof.
    unfold ascii_class, in_class. rewrite andb_true_iff, !forallb_forall, xorb_false_r, orb_true_iff, !existsb_exists.
    intros [A B] [[y [I E]]|[[lo hi] [I E]]].
    - apply N.eqb_eq in E. subst. apply N.ltb_lt. auto.
    - apply andb_true_iff in E. rewrite !N.leb_le in E. specialize (B _ I). apply N.ltb_lt in B. cbn in B. lia.
  Qed.
  Lemma class_ok name cs rs en c t : ascii_class cs rs = true -> in_class cs rs false (byte_val c) = true ->
    S (PClass name cs rs false) en (c :: t) (Good (VBytes [c]) en t).
  Proof.
    intros A I. destruct (after_ascii c t (ascii_class_small _ _ _ A I)) as (F1 & F2 & F3).
    rewrite <- F2. rewrite <- F3 at 3. apply sem_class; [discriminate|]. rewrite F1. exact I.
  Qed.
  Lemma class_inv name cs rs en t v en' r : ascii_class cs rs = true -> S (PClass name cs rs false) en t (Good v en' r) ->
    exists c, t = c :: r /\ in_class cs rs false (byte_val c) = true /\ v = VBytes [c] /\ en' = en.
  Proof.
    intros A H. inversion H as [| | | | | | | | | | | | | | | | |? ? ? ? ? ? Ne I| | |]; subst. destruct t as [|c t]; [contradiction|].
    pose proof (ascii_class_small _ _ _ A I) as Sm. apply first_rune_ascii in Sm. destruct Sm as [B E]. rewrite E in I.
    destruct (after_ascii c t B) as (_ & -> & ->). eauto.
  Qed.
  Lemma class_bad name cs rs en t : ascii_class cs rs = true -> not_next (fun c => in_class cs rs false (byte_val c) = true) t ->
    S (PClass name cs rs false) en t Fail.
  Proof.
    intros A N. apply sem_class_fail. destruct t as [|c t]; [auto|]. right.
    destruct (in_class cs rs false (first_rune (c :: t))) eqn:E; [|reflexivity].
    pose proof (ascii_class_small _ _ _ A E) as Sm. apply first_rune_ascii in Sm. destruct Sm as [_ F]. rewrite F in E.
    destruct (N c t eq_refl E).
  Qed.
  Lemma class_bad_inv name cs rs en t : ascii_class cs rs = true -> S (PClass name cs rs false) en t Fail ->
    not_next (fun c => in_class cs rs false (byte_val c) = true) t.
  Proof. intros A H c t' -> I. pose proof (class_ok name cs rs en c t' A I) as G. apply (S_fun _ _ _ _ _ H) in G. discriminate. Qed.

  (** * Repetition up to a stop byte *)
  (** The longest prefix without a byte for which [D] holds. *)
  Fixpoint span (D : ascii -> bool) (t : text) : text * text :=
    match t with
    | [] => ([], [])
    | c :: t' => if D c then ([], t) else let '(k, r) := span D t' in (c :: k, r)
    end.
  Definition stops (D : ascii -> bool) (t : text) : Prop := t = [] \/ exists c t', t = c :: t' /\ D c = true.
  Lemma span_spec D t : t = fst (span D t) ++ snd (span D t) /\ Forall (fun c => D c = false) (fst (span D t)) /\ stops D (snd (span D t)).
  Proof.
    induction t as [|c t (A & B & C)]; cbn [span]; [cbn; repeat split; auto; left; reflexivity|].
    destruct (D c) eqn:E; [cbn; repeat split; auto; right; eauto|].
    destruct (span D t) as [k r]; cbn in *. rewrite A at 1. repeat split; auto.
  Qed.
  Section Until.
    Variable e : pexp.
    Variable D : ascii -> bool.
    Hypothesis stop : forall t, stops D t -> S e [] t Fail.
    Hypothesis go : forall c t, D c = false -> exists v en, S e [] (c :: t) (Good v en (after_rune (c :: t))).
    Hypothesis D_ascii : forall c, D c = true -> (byte_val c < 128)%N.

    Lemma until_ok k : forall r, Forall (fun c => D c = false) k -> stops D r ->
      exists vs, SR e (k ++ r) vs r /\ (vs = [] <-> k = []).
    Proof.
      remember (List.length k) as n eqn:Hn. revert k Hn. induction n as [n IH] using lt_wf_ind; intros k Hn r F St. subst n.
      destruct k as [|c k]; cbn [app].
      - exists []. split; [apply rep_nil; auto|tauto].
      - inversion F as [|? ? Hc Fk]; subst. destruct (go c (k ++ r) Hc) as [v [en G]].
        destruct (after_rune_split c (k ++ r)) as (x & E & _ & X).
        assert (exists k', k ++ r = tl x ++ k' ++ r /\ after_rune (c :: k ++ r) = k' ++ r /\ k = tl x ++ k' /\ x <> []) as (k' & E1 & E2 & E3 & E4).
        { destruct X as [[_ ->]|[Hx Nx]].
          - cbn in E. inversion E as [E']. exists k. cbn. repeat split; auto; discriminate.
          - destruct x as [|c' x]; [contradiction|]. cbn [app] in E. inversion E as [[Ec Ek]]. subst c'. cbn [tl].
            assert (exists k', k = x ++ k') as [k' ->].
            { assert (L : (List.length x <= List.length k)%nat).
              { destruct (le_lt_dec (List.length x) (List.length k)) as [L|L]; [exact L|exfalso].
                destruct St as [->|(d & r' & -> & Hd)].
                - rewrite app_nil_r in Ek. apply (f_equal (@List.length _)) in Ek. rewrite app_length in Ek. lia.
                - apply D_ascii in Hd. inversion Hx as [|? ? _ Hx']; subst.
                  assert (I : nth (List.length k) x sp = d).
                  { rewrite <- (app_nth1 x (after_rune (c :: k ++ d :: r')) sp L), <- Ek.
                    rewrite app_nth2, Nat.sub_diag; [reflexivity|lia]. }
                  rewrite Forall_forall in Hx'. specialize (Hx' d). rewrite <- I in Hx' at 1.
                  specialize (Hx' (nth_In x sp L)). lia. }
              exists (skipn (List.length x) k). rewrite <- (firstn_skipn (List.length x) k) at 1. f_equal.
              apply (f_equal (firstn (List.length x))) in Ek. rewrite !firstn_app in Ek.
              rewrite Nat.sub_diag, firstn_all in Ek. cbn in Ek. rewrite app_nil_r in Ek.
              replace (List.length x - List.length k)%nat with 0%nat in Ek by lia. cbn in Ek. rewrite app_nil_r in Ek. exact Ek. }
            rewrite <- app_assoc in Ek. apply app_inv_head in Ek. exists k'. rewrite <- app_assoc. repeat split; auto; try discriminate. }
        rewrite E2 in G.
        destruct (IH (List.length k')) with (k := k') (r := r) as [vs [R _]]; auto.
        { rewrite E3. cbn [List.length]. rewrite app_length. lia. }
        { rewrite E3 in Fk. apply Forall_app in Fk. apply Fk. }
        exists (v :: vs). split; [|split; discriminate]. eapply rep_cons; eauto.
    Qed.
    Lemma until_inv t vs r : SR e t vs r -> exists k, t = k ++ r /\ Forall (fun c => D c = false) k /\ stops D r /\ (vs = [] <-> k = []).
    Proof.
      intros H. destruct (span_spec D t) as (A & B & C). destruct (until_ok _ _ B C) as [vs' [R X]]. rewrite <- A in R.
      destruct (SR_fun _ _ _ _ _ _ H R) as [-> ->]. exists (fst (span D t)). auto.
    Qed.
  End Until.

  (** A repeated class, plain or inverted. *)
  Definition is (c d : ascii) : bool := if ascii_dec c d then true else false.
  Lemma is_spec c d : is c d = true <-> c = d.
  Proof. unfold is. destruct (ascii_dec c d); split; congruence. Qed.
  Lemma inverted_stop name c t : stops (is c) t -> (byte_val c < 128)%N -> S (PClass name [byte_val c] [] true) [] t Fail.
  Proof.
    intros St B. apply sem_class_fail. destruct St as [->|(d & t' & -> & E)]; [auto|]. apply is_spec in E. subst d. right.
    destruct (after_ascii c t' B) as (-> & _). unfold in_class. cbn. rewrite N.eqb_refl. reflexivity.
  Qed.
  Lemma inverted_go name c d t : is c d = false -> (byte_val c < 128)%N ->
    exists v en, S (PClass name [byte_val c] [] true) [] (d :: t) (Good v en (after_rune (d :: t))).
  Proof.
    intros E B. do 2 eexists. apply sem_class; [discriminate|]. unfold in_class. cbn [existsb].
    destruct (N.eqb_spec (first_rune (d :: t)) (byte_val c)) as [X|X]; [|reflexivity].
    assert (Y : (first_rune (d :: t) < 128)%N) by lia. apply first_rune_ascii in Y. destruct Y as [_ Y]. rewrite Y in X.
    apply byte_val_inj in X. subst. unfold is in E. destruct (ascii_dec c c); congruence.
  Qed.
  Lemma inverted_inv name c t vs r : (byte_val c < 128)%N -> SR (PClass name [byte_val c] [] true) t vs r ->
    exists k, t = k ++ r /\ ~ In c k /\ (r = [] \/ exists r', r = c :: r') /\ (vs = [] <-> k = []).
  Proof.
    intros B H. apply (until_inv _ (is c)) in H.
    - destruct H as (k & A & F & St & V). exists k. split; [exact A|]. split; [|split; [|exact V]].
      + intros I. rewrite Forall_forall in F. specialize (F c I). unfold is in F. destruct (ascii_dec c c); congruence.
      + destruct St as [->|(d & r' & -> & E)]; [auto|]. apply is_spec in E. subst. eauto.
    - intros. apply inverted_stop; auto.
    - intros. apply inverted_go; auto.
    - intros d E. apply is_spec in E. subst. exact B.
  Qed.
  Lemma inverted_ok name c k r : (byte_val c < 128)%N -> ~ In c k -> (r = [] \/ exists r', r = c :: r') ->
    exists vs, SR (PClass name [byte_val c] [] true) (k ++ r) vs r /\ (vs = [] <-> k = []).
  Proof.
    intros B I St. apply (until_ok _ (is c)).
    - intros. apply inverted_stop; auto.
    - intros. apply inverted_go; auto.
    - intros d E. apply is_spec in E. subst. exact B.
    - apply Forall_forall. intros x Hx. destruct (is c x) eqn:E; [|reflexivity]. apply is_spec in E. congruence.
    - destruct St as [->|[r' ->]]; [left; reflexivity|right]. exists c, r'. split; [reflexivity|]. apply is_spec. reflexivity.
  Qed.

  (** * Sequences *)
  Lemma seq_ok e es vals en t v en' r o : S e en t (Good v en' r) -> SQ es (vals ++ [v]) en' r o -> SQ (e :: es) vals en t o.
  Proof. apply seq_cons. Qed.
  Lemma seq_inv e es vals en t v en' r : SQ (e :: es) vals en t (Good v en' r) ->
    exists v1 en1 r1, S e en t (Good v1 en1 r1) /\ SQ es (vals ++ [v1]) en1 r1 (Good v en' r).
  Proof. intros H. inversion H; subst. eauto. Qed.
  Lemma seq_end vals en t v en' r : SQ [] vals en t (Good v en' r) -> v = VSlice vals /\ en' = en /\ r = t.
  Proof. intros H. inversion H; subst. auto. Qed.
  Lemma sequence_inv es en t o : S (PSeq es) en t o -> SQ es [] en t o.
  Proof. intros H. inversion H; subst. assumption. Qed.
End Lex.

(** Splits a matched sequence into its matched elements. *)
Ltac seqinv H :=
  first [ apply sequence_inv in H | idtac ];
  repeat (let v := fresh "v" in let en := fresh "en" in let r := fresh "r" in let M := fresh "M" in
          apply seq_inv in H; destruct H as (v & en & r & M & H));
  apply seq_end in H; cbn [app] in H.
