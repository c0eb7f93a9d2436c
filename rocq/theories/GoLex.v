(** The reference Go scanner: tokens one after another. *)
From Verif Require Import Text GoAst GoParser SpecSyntax SpecGo SpecScan SpecWords GoChars GoNames.
From Verif Require Export GoNumber.
From Coq Require Import NArith Arith Bool Lia.
Open Scope nat_scope.
Open Scope list_scope.

(** ** Pieces of text *)
Lemma quoted_eq q raw s : forall a r, quoted q raw s = Some (a, r) -> s = a ++ r /\ a <> [].
Proof.
  assert (X : forall n s, List.length s <= n -> forall a r, quoted q raw s = Some (a, r) -> s = a ++ r /\ a <> []).
  { induction n as [|n IH]; intros [|c s0] L a r E; try discriminate; cbn in L; [lia|]. cbn in E.
    destruct (ch c q); [inversion E; subst; split; [reflexivity|discriminate]|]. destruct (negb raw && ch c nl); [discriminate|]. destruct (negb raw && ch c "\").
    - destruct s0 as [|d s1]; [discriminate|]. destruct (ch d nl); [discriminate|]. destruct (quoted q raw s1) as [[a' r']|] eqn:Q; [|discriminate]. inversion E; subst.
      destruct (IH s1 ltac:(cbn in L; lia) a' r Q) as [-> _]. split; [reflexivity|discriminate].
    - destruct (quoted q raw s0) as [[a' r']|] eqn:Q; [|discriminate]. inversion E; subst. destruct (IH s0 ltac:(lia) a' r Q) as [-> _]. split; [reflexivity|discriminate]. }
  intros a r. exact (X _ s (le_n _) a r).
Qed.
Lemma quoted_app q raw b s : forall a r, quoted q raw s = Some (a, r) -> quoted q raw (a ++ b) = Some (a, b).
Proof.
  assert (X : forall n s, List.length s <= n -> forall a r, quoted q raw s = Some (a, r) -> quoted q raw (a ++ b) = Some (a, b)).
  { induction n as [|n IH]; intros [|c s0] L a r E; try discriminate; cbn in L; [lia|]. cbn in E.
    destruct (ch c q) eqn:Cq; [inversion E; subst; cbn; rewrite Cq; reflexivity|]. destruct (negb raw && ch c nl) eqn:Cn; [discriminate|]. destruct (negb raw && ch c "\") eqn:Cb.
    - destruct s0 as [|d s1]; [discriminate|]. destruct (ch d nl) eqn:Dn; [discriminate|]. destruct (quoted q raw s1) as [[a' r']|] eqn:Q; [|discriminate]. inversion E; subst.
      cbn [app quoted]. rewrite Cq, Cn, Cb, Dn. rewrite (IH s1 ltac:(cbn in L; lia) a' r Q). reflexivity.
    - destruct (quoted q raw s0) as [[a' r']|] eqn:Q; [|discriminate]. inversion E; subst.
      cbn [app quoted]. rewrite Cq, Cn, Cb. rewrite (IH s0 ltac:(lia) a' r Q). reflexivity. }
  intros a r. exact (X _ s (le_n _) a r).
Qed.
(** Dropping carriage returns keeps a raw literal's end. *)
Definition no_cr (s : text) : text := filter (fun x => negb (ch x cr)) s.
Lemma quoted_raw_cr b s : forall a r, quoted "`" true s = Some (a, r) -> quoted "`" true (no_cr a ++ b) = Some (no_cr a, b).
Proof.
  induction s as [|c s IH]; intros a r E; cbn in E; [discriminate|]. destruct (ch c "`") eqn:Cq.
  - inversion E; subst. apply ch_eq in Cq. subst. reflexivity.
  - destruct (quoted "`" true s) as [[a' r']|] eqn:Q; [|discriminate]. inversion E; subst. cbn [no_cr filter]. specialize (IH _ _ eq_refl).
    destruct (ch c cr); cbn [negb]; [exact IH|]. cbn [app quoted]. rewrite Cq. cbn [negb andb]. fold (no_cr a'). rewrite IH. reflexivity.
Qed.

(** ** One token at a time *)
Definition emits (n : nat) (k : gtoken) (semi : bool) (pos : gopos) (l : nat) (b : text) : res (list ptok) :=
  bind (lex n semi (pos + N.of_nat l)%N b) (fun ts => Ok ((k, pos) :: ts)).
Definition name_chars (w : text) : Prop := exists c t, w = c :: t /\ is_letter c = true /\ Forall (fun c => is_alnum c = true) t /\ is_keyword w = false /\ good_name w = true.
Definition alnum_end (b : text) : Prop := forall c r, b = c :: r -> is_alnum c = false.

Lemma letter_class c : is_letter c = true -> ch c nl = false /\ ch c sp || ch c tab || ch c cr = false /\ is_alnum c = true.
Proof. intros H. unfold is_alnum. rewrite H. destruct c as [[] [] [] [] [] [] [] []]; vm_compute in H |- *; try discriminate; auto. Qed.
Lemma digit_class c : is_digit c = true -> ch c nl = false /\ ch c sp || ch c tab || ch c cr = false /\ is_letter c = false.
Proof. intros H. destruct c as [[] [] [] [] [] [] [] []]; vm_compute in H |- *; try discriminate; auto. Qed.

Lemma step_blank n semi pos b : lex (S n) semi pos (sp :: b) = lex n semi (pos + 1)%N b.
Proof. reflexivity. Qed.
Lemma step_ident n semi pos w b : name_chars w -> alnum_end b -> lex (S n) semi pos (w ++ b) = emits n (TIdent w) true pos (List.length w) b.
Proof.
  intros (c & t & -> & Hc & Ht & Hk & Hg) N. destruct (letter_class c Hc) as (C1 & C2 & C3). cbn [app lex]. rewrite C1, C2, Hc.
  change (c :: t ++ b) with ((c :: t) ++ b). rewrite (span_app is_alnum (c :: t) b (Forall_cons _ C3 Ht) N), Hk, Hg. reflexivity.
Qed.
(** [v] is a number, of kind [k]. *)
Definition num_chars (k : litkind) (v : text) : Prop :=
  lex_number v = Some (k, v, []) /\ exists c t, v = c :: t /\ (is_digit c || (ch c "." && match t with d :: _ => is_digit d | [] => false end)) = true.
Lemma step_number n semi pos k v b : num_chars k v -> num_end k b -> lex (S n) semi pos (v ++ b) = emits n (TLit k v) true pos (List.length v) b.
Proof.
  intros [H (c & t & -> & Hc)] N. pose proof (proj2 (number_spec _ _ _ _ b H) N) as X.
  assert (C : ch c nl = false /\ ch c sp || ch c tab || ch c cr = false /\ is_letter c = false).
  { apply orb_true_iff in Hc. destruct Hc as [Hc|Hc]; [apply digit_class; exact Hc|]. apply andb_true_iff in Hc. destruct Hc as [Hc _]. apply ch_eq in Hc. subst. repeat split. }
  destruct C as (C1 & C2 & C3). cbn [app] in *. cbn [lex]. rewrite C1, C2, C3.
  assert (Hc' : (is_digit c || (ch c "." && match t ++ b with d :: _ => is_digit d | [] => false end)) = true).
  { destruct (is_digit c); [reflexivity|]. cbn [orb] in *. destruct (ch c "."); [|discriminate]. cbn [andb] in *. destruct t; [discriminate|exact Hc]. }
  rewrite Hc', X. reflexivity.
Qed.
Definition str_chars (k : litkind) (v : text) : Prop :=
  match k with
  | LString => (exists a, v = dquote :: a /\ quoted dquote false a = Some (a, []) /\ good_quoted dquote a = true) \/ (exists a, v = "`"%char :: a /\ quoted "`" true a = Some (a, []) /\ no_cr a = a)
  | LChar => exists a, v = "'"%char :: a /\ quoted "'" false a = Some (a, []) /\ good_quoted "'" a = true
  | _ => False
  end.
Lemma step_string n semi pos k v b : str_chars k v -> lex (S n) semi pos (v ++ b) = emits n (TLit k v) true pos (List.length v) b.
Proof.
  destruct k; cbn [str_chars]; try contradiction; [intros (a & -> & Q & G)|intros [(a & -> & Q & G)|(a & -> & Q & R)]];
    pose proof (quoted_app _ _ b _ _ _ Q) as X; cbn [app].
  - change (lex (S n) semi pos ("'"%char :: a ++ b)) with
      (match quoted "'" false (a ++ b) with
       | Some (a0, r) => if good_quoted "'" a0 then emits n (TLit LChar ("'"%char :: a0)) true pos (S (List.length a0)) r else Err (str "illegal rune literal")
       | None => Err (str "rune literal not terminated") end). rewrite X, G. reflexivity.
  - change (lex (S n) semi pos (dquote :: a ++ b)) with
      (match quoted dquote false (a ++ b) with
       | Some (a0, r) => if good_quoted dquote a0 then emits n (TLit LString (dquote :: a0)) true pos (S (List.length a0)) r else Err (str "unknown escape sequence")
       | None => Err (str "string literal not terminated") end). rewrite X, G. reflexivity.
  - change (lex (S n) semi pos ("`"%char :: a ++ b)) with
      (match quoted "`" true (a ++ b) with
       | Some (a0, r) => emits n (TLit LString ("`"%char :: no_cr a0)) true pos (S (List.length a0)) r
       | None => Err (str "raw string literal not terminated") end). rewrite X, R. reflexivity.
Qed.

Definition banned (o : gotok) : text :=
  match o with
  | ADD => "+=" | SUB => "-=" | OR => "|=" | QUO => "=/*" | AND => "&^=" | LSS => "<=-" | GTR => ">="
  | XOR | MUL | REM | SHL | SHR | AND_NOT | NOT => "="
  | _ => ""
  end%string.
Definition op_end (o : gotok) (b : text) : Prop := forall c r, b = c :: r -> existsb (ch c) (banned o) = false.
Definition operator (o : gotok) : Prop := o <> TILDE.
Lemma op_first o b : operator o -> op_end o b -> exists c s', tok_string o ++ b = c :: s' /\
  ch c nl = false /\ ch c sp || ch c tab || ch c cr = false /\ is_letter c = false /\ is_digit c = false /\ ch c "." = false /\
  ch c dquote = false /\ ch c "'" = false /\ ch c "`" = false /\
  (forall d s'', s' = d :: s'' -> ch c "/" && ch d "/" = false /\ ch c "/" && ch d "*" = false).
Proof.
  intros Ho He. destruct o; try (destruct (Ho eq_refl)); cbn [tok_string str list_ascii_of_string app];
    eexists _, _; (split; [reflexivity|]); repeat split; try reflexivity; try (inversion H; subst; reflexivity).
  all: destruct b as [|e b]; try discriminate; inversion H; subst; specialize (He _ _ eq_refl); cbn in He; apply orb_false_iff in He; destruct He as [_ He]; apply orb_false_iff in He; destruct He as [H1 He]; apply orb_false_iff in He; destruct He as [H2 _]; cbn; assumption.
Qed.
Lemma op_longest o b : operator o -> op_end o b -> lex_operator (tok_string o ++ b) = Some (TOp o, List.length (tok_string o)).
Proof.
  intros Ho He. destruct b as [|c b]; [destruct o; try (destruct (Ho eq_refl)); reflexivity|]. specialize (He c b eq_refl).
  destruct o; try (destruct (Ho eq_refl)); destruct c as [[] [] [] [] [] [] [] []]; try (vm_compute in He; discriminate); vm_compute; reflexivity.
Qed.
Lemma step_op n semi pos o b : operator o -> op_end o b -> lex (S n) semi pos (tok_string o ++ b) = emits n (TOp o) false pos (List.length (tok_string o)) b.
Proof.
  intros Ho He. pose proof (op_longest o b Ho He) as X. destruct (op_first o b Ho He) as (c & s' & E & C1 & C2 & C3 & C4 & C5 & C6 & C7 & C8 & C9).
  assert (Sk : skipn (List.length (tok_string o)) (tok_string o ++ b) = b) by (rewrite skipn_app, skipn_all, Nat.sub_diag; reflexivity).
  rewrite E in *. cbn [lex]. rewrite C1, C2, C3, C4, C5, C6, C7, C8. cbn [andb orb]. destruct s' as [|d s'']; [rewrite X, Sk; reflexivity|].
  destruct (C9 d s'' eq_refl) as [D1 D2]. rewrite D1, D2, X, Sk. reflexivity.
Qed.
Definition punct (k : gtoken) : text :=
  match k with TLParen => "(" | TRParen => ")" | TComma => "," | TDot => "." | _ => "" end%string.
Definition dot_end (b : text) : Prop := forall c r, b = c :: r -> is_letter c = true.
Lemma step_punct n semi pos k b : (k = TLParen \/ k = TRParen \/ k = TComma) -> lex (S n) semi pos (punct k ++ b) = emits n k (ends_statement k) pos 1 b.
Proof. intros [->|[->| ->]]; destruct b; reflexivity. Qed.
Lemma step_dot n semi pos c b : is_letter c = true -> lex (S n) semi pos (punct TDot ++ c :: b) = emits n TDot false pos 1 (c :: b).
Proof.
  intros H. assert (D : is_digit c = false) by (destruct c as [[] [] [] [] [] [] [] []]; vm_compute in H |- *; congruence).
  assert (E : ch c "." = false) by (destruct c as [[] [] [] [] [] [] [] []]; vm_compute in H |- *; congruence).
  cbn [punct str list_ascii_of_string app]. cbn [lex]. rewrite D.
  change (ch "." nl) with false. change (ch "." sp || ch "." tab || ch "." cr) with false. change (is_letter ".") with false. change (is_digit ".") with false.
  cbn [andb orb]. change (ch "." dquote) with false. change (ch "." "'") with false. change (ch "." "`") with false. change (ch "." "/") with false. cbn [andb].
  assert (X : lex_operator ("."%char :: c :: b) = Some (TDot, 1)).
  { unfold lex_operator. destruct c as [[] [] [] [] [] [] [] []]; try (vm_compute in H; discriminate); try (vm_compute in E; discriminate); reflexivity. }
  rewrite X. reflexivity.
Qed.

(** ** A sequence of tokens and blanks *)
Inductive piece := Tok (k : gtoken) (w : text) | Gap.
Definition piece_text (p : piece) : text := match p with Tok _ w => w | Gap => [sp] end.
Definition text_of (ps : list piece) : text := List.concat (map piece_text ps).
Definition tokens_of (ps : list piece) : list gtoken := flat_map (fun p => match p with Tok k _ => [k] | Gap => [] end) ps.
Definition scans (k : gtoken) (w b : text) : Prop :=
  w <> [] /\ forall n semi pos, lex (S n) semi pos (w ++ b) = emits n k (ends_statement k) pos (List.length w) b.
Fixpoint runs (ps : list piece) : Prop :=
  match ps with
  | [] => True
  | Tok k w :: ps' => scans k w (text_of ps') /\ runs ps'
  | Gap :: ps' => runs ps'
  end.
Fixpoint final (semi : bool) (ps : list piece) : bool :=
  match ps with [] => semi | Tok k _ :: ps' => final (ends_statement k) ps' | Gap :: ps' => final semi ps' end.
Lemma runs_lex ps : runs ps -> forall n semi pos, List.length (text_of ps) < n ->
  exists ts p, lex n semi pos (text_of ps) = Ok (ts ++ (if final semi ps then [(TSemi, p)] else [])) /\ map fst ts = tokens_of ps /\
    match ps with Tok k _ :: _ => exists ts', ts = (k, pos) :: ts' | _ => True end.
Proof.
  induction ps as [|[k w|] ps IH]; intros R n semi pos L.
  - destruct n as [|n]; [cbn in L; lia|]. exists [], pos. cbn. destruct semi; auto.
  - destruct R as [[Ne Sc] R]. destruct n as [|n]; [lia|]. cbn [text_of map List.concat piece_text] in *. fold (text_of ps) in *. rewrite Sc. unfold emits.
    rewrite app_length in L. assert (List.length w <> 0) by (destruct w; [congruence|discriminate]).
    destruct (IH R n (ends_statement k) (pos + N.of_nat (List.length w))%N ltac:(lia)) as (ts & p & E & M & _). rewrite E. cbn [bind final].
    exists ((k, pos) :: ts), p. split; [reflexivity|]. split; [cbn; rewrite M; reflexivity|eauto].
  - destruct n as [|n]; [lia|]. cbn [runs] in R. change (text_of (Gap :: ps)) with (sp :: text_of ps) in *. cbn [List.length] in L. destruct (IH R n semi (pos + 1)%N ltac:(lia)) as (ts & p & E & M & _).
    exists ts, p. split; [cbn [final]; rewrite <- E; reflexivity|]. split; [exact M|exact I].
Qed.
Lemma scan_source s : go_source s -> scan s = lex (S (List.length s)) false 1%N s.
Proof. intros S. unfold scan. rewrite (source_no_bom s S). unfold scan_from. rewrite (proj2 (source_checked s) S). reflexivity. Qed.
Lemma runs_scan ps : runs ps -> go_source (text_of ps) -> final false ps = true -> exists ts p, scan (text_of ps) = Ok (ts ++ [(TSemi, p)]) /\ map fst ts = tokens_of ps.
Proof. intros R Sc F. rewrite (scan_source _ Sc). destruct (runs_lex ps R (S (List.length (text_of ps))) false 1%N ltac:(lia)) as (ts & p & E & M & _). rewrite F in E. eauto. Qed.
Lemma text_of_app a b : text_of (a ++ b) = text_of a ++ text_of b.
Proof. unfold text_of. rewrite map_app, concat_app. reflexivity. Qed.
Lemma tokens_of_app a b : tokens_of (a ++ b) = tokens_of a ++ tokens_of b.
Proof. apply flat_map_app. Qed.

(** ** Names and literals *)
Lemma lex_pos n : forall semi pos s ts, lex n semi pos s = Ok ts -> Forall (fun t => (pos <= snd t)%N) ts.
Proof.
  assert (Em : forall n k semi pos l b ts, emits n k semi pos l b = Ok ts -> (forall s p b ts, lex n s p b = Ok ts -> Forall (fun t => (p <= snd t)%N) ts) ->
    Forall (fun t => (pos <= snd t)%N) ts).
  { intros m k semi pos l b ts H IH. unfold emits in H. destruct (lex m semi (pos + N.of_nat l)%N b) as [us|e|x] eqn:E; try discriminate. inversion H; subst. constructor; [cbn [snd]; lia|].
    eapply Forall_impl; [|exact (IH _ _ _ _ E)]. intros t X. cbn beta in *. eapply N.le_trans; [|exact X]. lia. }
  assert (Wk : forall p q ts, (p <= q)%N -> Forall (fun t : ptok => (q <= snd t)%N) ts -> Forall (fun t => (p <= snd t)%N) ts).
  { intros p q ts L F. eapply Forall_impl; [|exact F]. intros t X. cbn beta in *. exact (N.le_trans _ _ _ L X). }
  induction n as [|n IH]; intros semi pos s ts H; [discriminate|]. cbn [lex] in H. destruct s as [|c s'].
  - destruct semi; inversion H; subst; repeat constructor. cbn [snd]. (unfold gopos in *; lia).
  - destruct (ch c nl); [destruct semi; [exact (Em n _ _ _ _ _ _ H (fun s p b ts => IH s p b ts))|eapply Wk; [|exact (IH _ _ _ _ H)]; (unfold gopos in *; lia)]|].
    destruct (ch c sp || ch c tab || ch c cr); [eapply Wk; [|exact (IH _ _ _ _ H)]; (unfold gopos in *; lia)|].
    destruct (is_letter c).
    { destruct (span is_alnum (c :: s')) as [w r]. destruct (is_keyword w); [|destruct (good_name w); [|discriminate]]; exact (Em n _ _ _ _ _ _ H (fun s p b ts => IH s p b ts)). }
    destruct (is_digit c || _); [destruct (lex_number (c :: s')) as [[[k v] r]|]; [exact (Em n _ _ _ _ _ _ H (fun s p b ts => IH s p b ts))|discriminate]|].
    destruct (ch c dquote); [destruct (quoted dquote false s') as [[a r]|]; [destruct (good_quoted dquote a); [exact (Em n _ _ _ _ _ _ H (fun s p b ts => IH s p b ts))|discriminate]|discriminate]|].
    destruct (ch c "'"); [destruct (quoted "'" false s') as [[a r]|]; [destruct (good_quoted "'" a); [exact (Em n _ _ _ _ _ _ H (fun s p b ts => IH s p b ts))|discriminate]|discriminate]|].
    destruct (ch c "`"); [destruct (quoted "`" true s') as [[a r]|]; [exact (Em n _ _ _ _ _ _ H (fun s p b ts => IH s p b ts))|discriminate]|].
    destruct s' as [|d s''].
    + destruct (lex_operator [c]) as [[t k]|]; [exact (Em n _ _ _ _ _ _ H (fun s p b ts => IH s p b ts))|discriminate].
    + destruct (ch c "/" && ch d "/"); [destruct (span _ s'') as [a r]; eapply Wk; [|exact (IH _ _ _ _ H)]; (unfold gopos in *; lia)|].
      destruct (ch c "/" && ch d "*").
      * destruct (comment_end s'' false) as [[hasnl r]|]; [|discriminate]. destruct (semi && hasnl).
        -- match type of H with bind (lex n false ?q r) _ = _ => destruct (lex n false q r) as [us|e|x] eqn:E end; try discriminate. inversion H; subst. constructor; [cbn [snd]; (unfold gopos in *; lia)|].
           eapply Wk; [|exact (IH _ _ _ _ E)]. (unfold gopos in *; lia).
        -- eapply Wk; [|exact (IH _ _ _ _ H)]. (unfold gopos in *; lia).
      * destruct (lex_operator _) as [[t k]|]; [exact (Em n _ _ _ _ _ _ H (fun s p b ts => IH s p b ts))|discriminate].
Qed.
Definition lit_chars (k : litkind) (v : text) : Prop := num_chars k v \/ str_chars k v.
Definition good (t : gtoken) : Prop := match t with TIdent x => name_chars x | TLit k v => lit_chars k v | _ => True end.
Lemma no_cr_twice a : no_cr (no_cr a) = no_cr a.
Proof. induction a as [|c a IH]; [reflexivity|]. cbn [no_cr filter]. destruct (ch c cr) eqn:E; cbn [negb]; [exact IH|]. cbn [filter]. rewrite E. cbn [negb]. f_equal. exact IH. Qed.

Lemma lex_good n : forall semi pos s ts, lex n semi pos s = Ok ts -> Forall (fun t => good (fst t)) ts.
Proof.
  assert (Em : forall n k semi pos l b ts, emits n k semi pos l b = Ok ts -> good k -> (forall s p b ts, lex n s p b = Ok ts -> Forall (fun t => good (fst t)) ts) ->
    Forall (fun t => good (fst t)) ts).
  { intros m k semi pos l b ts H G IH. unfold emits in H. destruct (lex m semi (pos + N.of_nat l)%N b) as [us|e|x] eqn:E; try discriminate. inversion H; subst. constructor; [exact G|exact (IH _ _ _ _ E)]. }
  induction n as [|n IH]; intros semi pos s ts H; [discriminate|]. cbn [lex] in H.
  assert (Em' : forall k semi pos l b, emits n k semi pos l b = Ok ts -> good k -> Forall (fun t => good (fst t)) ts) by (intros k se po l b X G; exact (Em n _ _ _ _ _ _ X G (fun s p b ts => IH s p b ts))). clear Em.
  destruct s as [|c s'].
  - destruct semi; inversion H; subst; repeat constructor.
  - destruct (ch c nl); [destruct semi; [exact (Em' _ _ _ _ _ H I)|exact (IH _ _ _ _ H)]|].
    destruct (ch c sp || ch c tab || ch c cr); [exact (IH _ _ _ _ H)|].
    destruct (is_letter c) eqn:Lc.
    { destruct (span is_alnum (c :: s')) as [w r] eqn:Sp. destruct (is_keyword w) eqn:Kw; [exact (Em' _ _ _ _ _ H I)|]. destruct (good_name w) eqn:Gn; [|discriminate]. apply (Em' _ _ _ _ _ H).
      apply span_eq in Sp. destruct Sp as (E & F & N). destruct w as [|c' w].
      - cbn in E. specialize (N c s' (eq_sym E)). unfold is_alnum in N. rewrite Lc in N. discriminate.
      - cbn in E. inversion E; subst. exists c', w. inversion F; subst. auto. }
    destruct (is_digit c || _) eqn:Dc.
    { destruct (lex_number (c :: s')) as [[[k v] r]|] eqn:Ln; [|discriminate]. apply (Em' _ _ _ _ _ H). left. split.
      - pose proof (proj2 (number_spec _ _ _ _ [] Ln) (num_end_nil _)) as X. rewrite app_nil_r in X. exact X.
      - destruct (number_head _ _ _ _ _ Ln Dc) as (t & -> & X). eauto. }
    destruct (ch c dquote) eqn:Cq.
    { destruct (quoted dquote false s') as [[a r]|] eqn:Q; [|discriminate]. destruct (good_quoted dquote a) eqn:Gq; [|discriminate]. apply (Em' _ _ _ _ _ H). right. left. exists a. apply ch_eq in Cq. subst c. split; [reflexivity|]. split; [|exact Gq].
      pose proof (quoted_app _ _ [] _ _ _ Q) as X. rewrite app_nil_r in X. exact X. }
    destruct (ch c "'") eqn:Cc.
    { destruct (quoted "'" false s') as [[a r]|] eqn:Q; [|discriminate]. destruct (good_quoted "'" a) eqn:Gq; [|discriminate]. apply (Em' _ _ _ _ _ H). right. exists a. apply ch_eq in Cc. subst c. split; [reflexivity|]. split; [|exact Gq].
      pose proof (quoted_app _ _ [] _ _ _ Q) as X. rewrite app_nil_r in X. exact X. }
    destruct (ch c "`") eqn:Cr.
    { destruct (quoted "`" true s') as [[a r]|] eqn:Q; [|discriminate]. apply (Em' _ _ _ _ _ H). right. right. exists (no_cr a). apply ch_eq in Cr. subst c. split; [reflexivity|]. split; [|apply no_cr_twice].
      pose proof (quoted_raw_cr [] _ _ _ Q) as X. rewrite app_nil_r in X. exact X. }
    assert (Op : forall t k x, lex_operator x = Some (t, k) -> good t).
    { intros t k x. unfold lex_operator. destruct (find _ operators) as [[o t0]|] eqn:F; [|discriminate]. intros X. inversion X; subst. apply find_some in F. destruct F as [F _].
      cbn in F. repeat (destruct F as [F|F]; [inversion F; subst; exact I|]). contradiction. }
    destruct s' as [|d s''].
    + destruct (lex_operator [c]) as [[t k]|] eqn:Lo; [exact (Em' _ _ _ _ _ H (Op _ _ _ Lo))|discriminate].
    + destruct (ch c "/" && ch d "/"); [destruct (span _ s'') as [a r]; exact (IH _ _ _ _ H)|].
      destruct (ch c "/" && ch d "*").
      * destruct (comment_end s'' false) as [[hasnl r]|]; [|discriminate]. destruct (semi && hasnl); [|exact (IH _ _ _ _ H)].
        match type of H with bind (lex n false ?q r) _ = _ => destruct (lex n false q r) as [us|e|x] eqn:E end; try discriminate. inversion H; subst. constructor; [exact I|exact (IH _ _ _ _ E)].
      * destruct (lex_operator (c :: d :: s'')) as [[t k]|] eqn:Lo; [exact (Em' _ _ _ _ _ H (Op _ _ _ Lo))|discriminate].
Qed.

(** What was scanned. *)
Lemma scan_inv s ts : scan s = Ok ts -> exists pos t, (s = t /\ pos = 1%N \/ s = mark ++ t /\ pos = 4%N) /\ go_source t /\ lex (S (List.length t)) false pos t = Ok ts.
Proof.
  unfold scan. destruct (has_prefix bom s) eqn:B; unfold scan_from; match goal with |- (if source_chars (List.length ?t) ?t then _ else _) = _ -> _ => destruct (source_chars (List.length t) t) eqn:C; [|discriminate]; intros E; exists (if has_prefix bom s then 4%N else 1%N), t end; rewrite B.
  - apply source_checked in C. apply bom_prefix in B. auto.
  - apply source_checked in C. auto.
Qed.
Lemma scan_first s k ts : scan s = Ok ((k, 1%N) :: ts) -> go_source s /\ lex (S (List.length s)) false 1%N s = Ok ((k, 1%N) :: ts).
Proof.
  intros E. apply scan_inv in E. destruct E as (pos & t & [[-> ->]|[_ ->]] & S & E); [auto|]. apply lex_pos in E. inversion E as [|? ? X _]; subst. cbn [snd] in X. vm_compute in X. elim X. reflexivity.
Qed.

Lemma one_token k w : w <> [] -> ends_statement k = true -> go_source w -> (forall n semi pos, lex (S n) semi pos (w ++ []) = emits n k true pos (List.length w) []) ->
  exists p, scan w = Ok [(k, 1%N); (TSemi, p)].
Proof.
  intros Ne Es Sw H. rewrite (scan_source w Sw). specialize (H (List.length w) false 1%N). rewrite app_nil_r in H. rewrite H. unfold emits. destruct w as [|c w]; [congruence|]. cbn [List.length]. eexists. reflexivity.
Qed.
Lemma alnum_plain c : low_alnum c -> plain c.
Proof. intros [H H']. unfold plain. destruct c as [[] [] [] [] [] [] [] []]; vm_compute in H; vm_compute in H'; try discriminate; split; reflexivity. Qed.
Lemma name_source x : name_chars x -> go_source x.
Proof. intros (c & t & -> & _ & _ & _ & G). apply good_name_iff in G. exact (text_source _ _ G). Qed.
Lemma number_source k v : num_chars k v -> go_source v.
Proof.
  intros [H _]. apply number_chars in H. apply source_plain. revert H. apply Forall_impl. intros c [H|[->|[->| ->]]]; [exact (alnum_plain c H)|split; reflexivity..].
Qed.
Lemma scanned_name_iff x : scanned_name x <-> name_chars x.
Proof.
  split.
  - intros [p E]. apply scan_first in E. destruct E as [_ E]. apply lex_good in E. inversion E; subst. exact H1.
  - intros N. apply one_token; [destruct N as (c & t & -> & _); discriminate|reflexivity|exact (name_source x N)|]. intros n semi pos. apply step_ident; [exact N|discriminate].
Qed.
Lemma scanned_literal_iff k v : scanned_literal k v <-> lit_chars k v /\ go_source v.
Proof.
  split.
  - intros [p E]. apply scan_first in E. destruct E as [S E]. split; [|exact S]. apply lex_good in E. inversion E; subst. exact H1.
  - intros [L S]. apply one_token; [|reflexivity|exact S|].
    + destruct L as [[_ (c & t & -> & _)]|Q]; [discriminate|]. destruct k; cbn in Q; try contradiction; [destruct Q as (a & -> & _); discriminate|destruct Q as [(a & -> & _)|(a & -> & _)]; discriminate].
    + intros n semi pos. destruct L as [L|L]; [apply step_number; [exact L|apply num_end_nil]|apply step_string; exact L].
Qed.
