(** The words of a scanned text are pieces of it. *)
From Verif Require Import Text GoAst Utf8 GoParser SpecUtf8 SpecSyntax SpecGo SpecWords PegPoints SynShape GoChars GoLex GoWords.
From Coq Require Import NArith Arith Bool Lia.
Open Scope nat_scope.
Open Scope list_scope.

Lemma quoted_last q raw s : forall a r, quoted q raw s = Some (a, r) -> exists t, a = t ++ [q].
Proof.
  assert (X : forall n s, List.length s <= n -> forall a r, quoted q raw s = Some (a, r) -> exists t, a = t ++ [q]).
  { induction n as [|n IH]; intros [|c s0] L a r E; try discriminate; cbn in L; [lia|]. cbn in E.
    destruct (ch c q) eqn:Cq; [inversion E; subst; apply ch_eq in Cq; subst; exists []; reflexivity|]. destruct (negb raw && ch c nl); [discriminate|]. destruct (negb raw && ch c "\").
    - destruct s0 as [|d s1]; [discriminate|]. destruct (ch d nl); [discriminate|]. destruct (quoted q raw s1) as [[a' r']|] eqn:Qe; [|discriminate]. inversion E; subst.
      destruct (IH s1 ltac:(cbn in L; lia) a' r Qe) as [t ->]. exists (c :: d :: t). reflexivity.
    - destruct (quoted q raw s0) as [[a' r']|] eqn:Qe; [|discriminate]. inversion E; subst. destruct (IH s0 ltac:(lia) a' r Qe) as [t ->]. exists (c :: t). reflexivity. }
  intros a r. exact (X _ s (le_n _) a r).
Qed.
(** A piece of the text, without carriage returns if a raw string. *)
Definition piece_of (s v : text) : Prop := exists m, (exists a b, s = a ++ m ++ b) /\ (v = m \/ v = no_cr m).
Lemma piece_sub a s b v : piece_of s v -> piece_of (a ++ s ++ b) v.
Proof. intros (m & (x & y & ->) & H). exists m. split; [|exact H]. exists (a ++ x), (y ++ b). rewrite <- !app_assoc. reflexivity. Qed.
Lemma piece_right a s v : piece_of s v -> piece_of (a ++ s) v.
Proof. intros H. rewrite <- (app_nil_r s). apply piece_sub. exact H. Qed.
Lemma piece_lacks c s v : piece_of s v -> ~ In c s -> ~ In c v.
Proof.
  intros (m & (a & b & ->) & E) N I. apply N. rewrite !in_app_iff. right. left. destruct E as [->| ->]; [exact I|]. apply filter_In in I. tauto.
Qed.
(** The pieces are whole characters. *)
Lemma no_cr_source t : go_source t -> go_source (no_cr t).
Proof.
  induction 1 as [|k t K S IH]; [constructor|]. unfold no_cr in *. rewrite filter_app. destruct (utf8_char_first k (proj1 K)) as (c & k' & -> & [[L ->]|[L F]]).
  - cbn [filter]. destruct (ch c cr); cbn [negb app]; [exact IH|]. apply (go_next [c]); assumption.
  - assert (E : filter (fun x => negb (ch x cr)) (c :: k') = c :: k').
    { assert (X : Forall (fun x => (128 <= byte_val x)%N) (c :: k')) by (constructor; assumption). clear -X. induction X as [|x l Hx X IH]; [reflexivity|]. cbn. destruct (ch x cr) eqn:E; [apply ch_eq in E; subst; vm_compute in Hx; congruence|]. cbn. f_equal. exact IH. }
    rewrite E. constructor; assumption.
Qed.
(** Part of a source. *)
Definition part (s : text) : Prop := exists a b, go_source (a ++ s ++ b).
Lemma part_right a s : part (a ++ s) -> part s.
Proof. intros (x & y & S). exists (x ++ a), y. rewrite <- !app_assoc in *. exact S. Qed.
Lemma part_left s b : part (s ++ b) -> part s.
Proof. intros (x & y & S). exists x, (b ++ y). rewrite <- !app_assoc in *. exact S. Qed.
Definition lit_ok (s : text) (t : gtoken) : Prop := match t with TLit _ v => piece_of s v /\ (part s -> go_source v) | _ => True end.
Lemma lit_ok_right a s t : lit_ok s t -> lit_ok (a ++ s) t.
Proof. destruct t; cbn; auto. intros [P U]. split; [apply piece_right; exact P|]. intros W. apply U. exact (part_right _ _ W). Qed.
Lemma ascii_ends c t d : (byte_val c < 128)%N -> (byte_val d < 128)%N -> within (c :: t ++ [d]) -> utf8 (c :: t ++ [d]).
Proof.
  intros C D W. change (c :: t ++ [d]) with ([c] ++ t ++ [d]) in *. pose proof (within_between c t d C D W) as U. apply utf8_app; [apply utf8_ascii; repeat constructor; exact C|]. apply utf8_app; [exact U|apply utf8_ascii; repeat constructor; exact D].
Qed.
Lemma part_ends c t d : (byte_val c < 128)%N -> (byte_val d < 128)%N -> part (c :: t ++ [d]) -> go_source (c :: t ++ [d]).
Proof.
  intros C D (a & b & S). apply (source_part a _ b S). apply ascii_ends; auto. exists a, b. exact (source_utf8 _ S).
Qed.
Lemma lex_literals n : forall semi pos s ts, lex n semi pos s = Ok ts -> Forall (fun t => lit_ok s (fst t)) ts.
Proof.
  induction n as [|n IH]; intros semi pos s ts H; [discriminate|]. cbn [lex] in H.
  assert (Go : forall a semi pos b us, s = a ++ b -> lex n semi pos b = Ok us -> Forall (fun t => lit_ok s (fst t)) us).
  { intros a se po b us -> E. eapply Forall_impl; [|exact (IH _ _ _ _ E)]. intros t. apply lit_ok_right. }
  assert (Em : forall k a semi pos l b, emits n k semi pos l b = Ok ts -> s = a ++ b -> lit_ok s k -> Forall (fun t => lit_ok s (fst t)) ts).
  { intros k a se po l b E Es L. unfold emits in E. destruct (lex n se (po + N.of_nat l)%N b) as [us|x|x] eqn:El; try discriminate. inversion E; subst ts. constructor; [exact L|exact (Go a _ _ _ _ Es El)]. }
  destruct s as [|c s'].
  - destruct semi; inversion H; subst; repeat constructor.
  - destruct (ch c nl); [destruct semi; [exact (Em _ [c] _ _ _ _ H eq_refl I)|exact (Go [c] _ _ _ _ eq_refl H)]|].
    destruct (ch c sp || ch c tab || ch c cr); [exact (Go [c] _ _ _ _ eq_refl H)|].
    destruct (is_letter c) eqn:Lc.
    { destruct (span is_alnum (c :: s')) as [w r] eqn:Sp. apply span_eq in Sp. destruct Sp as (E & _). destruct (is_keyword w); [|destruct (good_name w); [|discriminate]]; exact (Em _ w _ _ _ _ H E I). }
    destruct (is_digit c || _) eqn:Dc.
    { destruct (lex_number (c :: s')) as [[[k v] r]|] eqn:Ln; [|discriminate]. pose proof (proj1 (number_spec _ _ _ _ [] Ln)) as E. apply (Em _ v _ _ _ _ H E). split.
      - exists v. split; [exists [], r; exact E|auto].
      - intros _. apply (number_source k). destruct (number_head _ _ _ _ _ Ln Dc) as (t & -> & X). split; [|eauto]. pose proof (proj2 (number_spec _ _ _ _ [] Ln) (num_end_nil _)) as Y. rewrite app_nil_r in Y. exact Y. }
    assert (Str : forall q a r, quoted q false s' = Some (a, r) -> ch c q = true -> (byte_val q < 128)%N -> c :: s' = (c :: a) ++ r /\ forall k, lit_ok (c :: s') (TLit k (c :: a))).
    { intros q a r Q Cq B. pose proof (quoted_last _ _ _ _ _ Q) as [t Et]. apply quoted_eq in Q. destruct Q as [Es _]. subst s'. split; [reflexivity|]. intros k. split; [exists (c :: a); split; [exists [], r; reflexivity|auto]|].
      intros W. apply ch_eq in Cq. subst c a. apply part_ends; auto. exact (part_left (q :: t ++ [q]) r W). }
    destruct (ch c dquote) eqn:Cq.
    { destruct (quoted dquote false s') as [[a r]|] eqn:Q; [|discriminate]. destruct (good_quoted dquote a); [|discriminate]. destruct (Str _ _ _ Q Cq ltac:(reflexivity)) as [E L]. exact (Em _ (c :: a) _ _ _ _ H E (L _)). }
    destruct (ch c "'") eqn:Cc.
    { destruct (quoted "'" false s') as [[a r]|] eqn:Q; [|discriminate]. destruct (good_quoted "'" a); [|discriminate]. destruct (Str _ _ _ Q Cc ltac:(reflexivity)) as [E L]. exact (Em _ (c :: a) _ _ _ _ H E (L _)). }
    destruct (ch c "`") eqn:Cr.
    { destruct (quoted "`" true s') as [[a r]|] eqn:Q; [|discriminate]. pose proof (quoted_last _ _ _ _ _ Q) as [t Et]. apply quoted_eq in Q. destruct Q as [Es _]. subst s'. apply ch_eq in Cr. subst c.
      assert (Ev : "`"%char :: filter (fun x => negb (ch x cr)) a = no_cr ("`"%char :: a)) by reflexivity. rewrite Ev in H.
      apply (Em _ ("`"%char :: a) _ _ _ _ H); [reflexivity|]. split.
      - exists ("`"%char :: a). split; [exists [], r; reflexivity|auto].
      - intros W. apply no_cr_source. subst a. apply part_ends; [reflexivity..|]. exact (part_left ("`"%char :: t ++ ["`"%char]) r W). }
    assert (Op : forall t k x, lex_operator x = Some (t, k) -> lit_ok (c :: s') t).
    { intros t k x. unfold lex_operator. destruct (find _ operators) as [[o t0]|] eqn:F; [|discriminate]. intros X. inversion X; subst. apply find_some in F. destruct F as [F _].
      cbn in F. repeat (destruct F as [F|F]; [inversion F; subst; exact I|]). contradiction. }
    destruct s' as [|d s''].
    + destruct (lex_operator [c]) as [[t k]|] eqn:Lo; [|discriminate]. exact (Em _ (firstn k [c]) _ _ _ _ H (eq_sym (firstn_skipn k [c])) (Op _ _ _ Lo)).
    + destruct (ch c "/" && ch d "/"); [destruct (span _ s'') as [a r] eqn:Sp; apply span_eq in Sp; destruct Sp as (-> & _); exact (Go (c :: d :: a) _ _ _ _ eq_refl H)|].
      destruct (ch c "/" && ch d "*").
      * destruct (comment_end s'' false) as [[hasnl r]|] eqn:Ce; [|discriminate].
        assert (Er : exists a, s'' = a ++ r).
        { clear -Ce. revert Ce. generalize false. induction s'' as [|x s IH]; intros b E; [discriminate|]. cbn [comment_end] in E. destruct s as [|y s]; [discriminate|]. destruct (ch x "*" && ch y "/"); [inversion E; subst; exists [x; y]; reflexivity|].
          apply IH in E. destruct E as [a ->]. exists (x :: a). reflexivity. }
        destruct Er as [a ->]. destruct (semi && hasnl); [|exact (Go (c :: d :: a) _ _ _ _ eq_refl H)].
        match type of H with bind (lex n false ?q r) _ = _ => destruct (lex n false q r) as [us|e|x] eqn:E end; try discriminate. inversion H; subst. constructor; [exact I|exact (Go (c :: d :: a) _ _ _ _ eq_refl E)].
      * destruct (lex_operator (c :: d :: s'')) as [[t k]|] eqn:Lo; [|discriminate]. exact (Em _ (firstn k (c :: d :: s'')) _ _ _ _ H (eq_sym (firstn_skipn k _)) (Op _ _ _ Lo)).
Qed.

(** A scanned text: its words are good and its literals are pieces of it. *)
Lemma scan_literals s ts : scan s = Ok ts -> Forall (fun t => match fst t with TLit _ v => piece_of s v /\ go_source v | _ => True end) ts.
Proof.
  intros E. destruct (scan_inv s ts E) as (pos & t & Es & S & L). apply lex_literals in L.
  assert (P : part t) by (exists [], []; rewrite app_nil_r; exact S).
  eapply Forall_impl; [|exact L]. intros [[] q]; cbn; auto. intros [Pc Sv]. split; [|exact (Sv P)].
  destruct Es as [[-> _]|[-> _]]; [exact Pc|apply piece_right; exact Pc].
Qed.
Definition scanned (t : gtoken) : Prop := match t with TIdent x => go_identifier x | TLit k v => go_lit k v | _ => True end.
Lemma scan_good s ts : scan s = Ok ts -> Forall (fun t => scanned (fst t)) ts.
Proof.
  intros E. pose proof (scan_literals s ts E) as L. destruct (scan_inv s ts E) as (pos & t & _ & _ & Lx). apply lex_good in Lx.
  rewrite Forall_forall in *. intros x I. specialize (L x I). specialize (Lx x I). destruct x as [[] q]; cbn in *; auto; [apply name_iff; exact Lx|apply literal_iff; tauto].
Qed.
