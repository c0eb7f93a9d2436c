(** Dumps determine their trees (C59). *)
From Verif Require Import Text GoAst Ast Utf8 Quote Parse Dump SpecSyntax SpecDump QuoteFacts DumpFacts.
From Coq Require Import Arith Bool NArith Lia DecimalString DecimalFacts DecimalNat DecimalN.
Open Scope nat_scope.
Open Scope list_scope.

(** ** The page determines the lines *)
Definition dot : ascii := "."%char.
Definition ok_line (l : nat * text) : Prop := ~ In nl (snd l) /\ exists b c, snd l = b :: c /\ b <> dot.
Lemma dots_inj k : forall k' c c' X X', (exists b d, c = b :: d /\ b <> dot) -> (exists b d, c' = b :: d /\ b <> dot) ->
  List.concat (repeat (str ".  ") k) ++ c ++ X = List.concat (repeat (str ".  ") k') ++ c' ++ X' -> k = k' /\ c ++ X = c' ++ X'.
Proof.
  induction k; intros [|k'] c c' X X' (b & d & -> & Hb) (b' & d' & -> & Hb') E; cbn in E.
  - auto.
  - injection E as E _. now destruct Hb.
  - injection E as E _. symmetry in E. now destruct Hb'.
  - injection E as E. destruct (IHk k' (b :: d) (b' :: d') X X') as [-> ?]; eauto.
Qed.
Lemma nl_inj c : forall c' X X' : text, ~ In nl c -> ~ In nl c' -> c ++ nl :: X = c' ++ nl :: X' -> c = c' /\ X = X'.
Proof.
  induction c as [|b c IH]; intros [|b' c'] X X' H H' E; cbn in *.
  - injection E as ->. auto.
  - injection E as <- _. exfalso. auto.
  - injection E as -> _. exfalso. auto.
  - injection E as -> E. destruct (IH c' X X') as [-> ->]; auto.
Qed.
Lemma page_inj ls : forall ls' i, Forall ok_line ls -> Forall ok_line ls' -> page i ls = page i ls' -> ls = ls'.
Proof.
  assert (P : forall i l, ok_line l -> page_line i l = align6 (dec i) ++ str "  " ++ List.concat (repeat (str ".  ") (fst l)) ++ snd l ++ [nl]).
  { intros i [k c] (_ & b & d & E & _). cbn in E. subst c. reflexivity. }
  assert (N : forall i l X, ok_line l -> page_line i l ++ X <> []).
  { intros i l X O. rewrite P by exact O. destruct (align6 (dec i)); discriminate. }
  induction ls as [|[k c] ls IH]; intros [|[k' c'] ls'] i O O' E; [reflexivity| | |]; cbn [page] in E.
  - inversion O'; subst. symmetry in E. now apply N in E.
  - inversion O; subst. now apply N in E.
  - inversion O as [|? ? O1 O2]; subst. inversion O' as [|? ? O1' O2']; subst. rewrite !P in E by assumption.
    rewrite <- !app_assoc in E. apply app_inv_head in E. apply app_inv_head in E. cbn [fst snd] in E.
    destruct O1 as (N1 & S1). destruct O1' as (N1' & S1'). cbn [snd] in *.
    destruct (dots_inj _ _ _ _ _ _ S1 S1' E) as [-> E']. cbn in E'. destruct (nl_inj _ _ _ _ N1 N1' E') as [-> E'']. f_equal. eauto.
Qed.

(** ** The lines determine the document *)
Section DocInd.
  Variable P : doc -> Prop.
  Hypothesis HL : forall t, P (Leaf t).
  Hypothesis HB : forall h is, Forall (fun i => P (snd i)) is -> P (Block h is).
  Fixpoint doc_ind' (d : doc) : P d :=
    match d with
    | Leaf t => HL t
    | Block h is => HB h is ((fix go (l : list (text * doc)) : Forall (fun i => P (snd i)) l :=
        match l with [] => Forall_nil _ | i :: l => Forall_cons i (doc_ind' (snd i)) (go l) end) is)
    end.
End DocInd.

Definition name (l : text) : Prop := ~ In ":"%char l /\ ~ In nl l /\ exists b c, l = b :: c /\ b <> dot.
Inductive tame : doc -> Prop :=
| tame_leaf t : tidy t -> tame (Leaf t)
| tame_block h is : ~ In nl h -> Forall (fun i => name (fst i) /\
    (fst i <> str "Type" /\ tame (snd i) \/ fst i = str "Type" /\ exists t, snd i = Leaf t /\ ~ In nl t)) is -> tame (Block h is).
Definition label (l : text) : Prop := ~ In nl l /\ last l sp = sp.

Lemma name_label n : name n -> label (n ++ str ": ").
Proof. intros (_ & N & _). split; [rewrite in_app_iff; cbn; intuition discriminate|]. change (str ": ") with ([":"%char] ++ [sp]). rewrite app_assoc. apply last_last. Qed.
Lemma last_cons_default {A} (l : list A) a b : l <> [] -> last l a = last l b.
Proof. induction l as [|x [|y l] IH]; intros H; [contradiction|reflexivity|]. cbn in *. apply IH. discriminate. Qed.
Lemma last_app_text l t : label l -> last (l ++ t) sp = last t sp.
Proof.
  intros [_ L]. destruct t as [|b t]; [now rewrite List.app_nil_r|]. clear L. induction l as [|x l IH]; [reflexivity|].
  cbn [app]. rewrite <- IH. cbn. destruct (l ++ b :: t) eqn:E; [destruct l; discriminate|reflexivity].
Qed.
Lemma last_open l h : last (l ++ h ++ str " {") sp = "{"%char.
Proof. change (str " {") with ([sp] ++ ["{"%char]). rewrite !app_assoc. apply last_last. Qed.
Lemma last_close l h : last (l ++ h ++ str " {}") sp = "}"%char.
Proof. change (str " {}") with ([sp; "{"%char] ++ ["}"%char]). rewrite !app_assoc. apply last_last. Qed.

Lemma first_line k l d : label l -> (tame d \/ exists t, d = Leaf t /\ ~ In nl t) -> exists x ls, doc_lines k l d = (k, l ++ x) :: ls.
Proof.
  intros [L _] T. assert (H : forall t, ~ In nl t -> exists x ls, doc_lines k l (Leaf t) = (k, l ++ x) :: ls).
  { intros t N. cbn. rewrite split_nl_one by (rewrite in_app_iff; tauto). cbn. eauto. }
  destruct T as [T|(t & -> & N)]; [|eauto]. inversion T as [t W|h is N F]; subst; [apply H, W|].
  cbn. destruct is; eauto.
Qed.
Lemma colon_inj n : forall n' x x', ~ In ":"%char n -> ~ In ":"%char n' -> (n ++ str ": ") ++ x = (n' ++ str ": ") ++ x' -> n = n'.
Proof.
  induction n as [|b n IH]; intros [|b' n'] x x' H H' E; cbn in *.
  - reflexivity.
  - injection E as <- _. exfalso. auto.
  - injection E as -> _. exfalso. auto.
  - injection E as -> E. f_equal. eapply IH; eauto.
Qed.
Lemma item_ok k i : name (fst i) /\ (fst i <> str "Type" /\ tame (snd i) \/ fst i = str "Type" /\ exists t, snd i = Leaf t /\ ~ In nl t) ->
  exists x ls, doc_lines k (fst i ++ str ": ") (snd i) = (k, (fst i ++ str ": ") ++ x) :: ls.
Proof. intros (N & T). apply first_line; [apply name_label, N|]. destruct T as [[_ T]|[_ T]]; auto. Qed.

Lemma leaf_inj k l t t' rest rest' : label l -> ~ In nl t -> ~ In nl t' ->
  doc_lines k l (Leaf t) ++ rest = doc_lines k l (Leaf t') ++ rest' -> t = t' /\ rest = rest'.
Proof.
  intros [L _] N N' E. cbn in E. rewrite !split_nl_one in E by (rewrite in_app_iff; tauto). cbn in E. injection E as E ->.
  apply app_inv_head in E. auto.
Qed.

Lemma lines_inj d : forall d' k l rest rest', tame d -> tame d' -> label l ->
  doc_lines k l d ++ rest = doc_lines k l d' ++ rest' -> d = d' /\ rest = rest'.
Proof.
  induction d as [t|h is IH] using doc_ind'; intros d' k l rest rest' T T' L E.
  - inversion T as [? W|]; subst. inversion T' as [t' W'|h' is' N' F']; subst.
    + destruct (leaf_inj k l t t' rest rest' L (proj1 W) (proj1 W') E) as [-> ->]. auto.
    + exfalso. cbn [doc_lines] in E. rewrite split_nl_one in E by (rewrite in_app_iff; destruct W, L; tauto). cbn [map app] in E.
      destruct W as (_ & W1 & W2). rewrite <- (last_app_text l t L) in W1, W2.
      destruct is'; cbn [app] in E; injection E as E _; rewrite E in *; [now rewrite last_close in W2|now rewrite last_open in W1].
  - inversion T as [|? ? N F]; subst. inversion T' as [t' W'|h' is' N' F']; subst.
    + exfalso. cbn [doc_lines] in E. rewrite split_nl_one in E by (rewrite in_app_iff; destruct W', L; tauto). cbn [map app] in E.
      destruct W' as (_ & W1 & W2). rewrite <- (last_app_text l t' L) in W1, W2.
      destruct is; cbn [app] in E; injection E as E _; rewrite <- E in *; [now rewrite last_close in W2|now rewrite last_open in W1].
    + destruct is as [|i is], is' as [|i' is'].
      * cbn in E. injection E as E ->. apply app_inv_head in E. apply app_inv_tail in E. subst. auto.
      * exfalso. cbn [doc_lines app] in E. injection E as E _. apply (f_equal (fun t => last t sp)) in E. rewrite last_close, last_open in E. discriminate.
      * exfalso. cbn [doc_lines app] in E. injection E as E _. apply (f_equal (fun t => last t sp)) in E. rewrite last_close, last_open in E. discriminate.
      * cbn [doc_lines app] in E. injection E as E0 E. apply app_inv_head in E0. apply app_inv_tail in E0. subst h'.
        change ((item_lines (S k) (i :: is) ++ [(k, str "}")]) ++ rest = (item_lines (S k) (i' :: is') ++ [(k, str "}")]) ++ rest') in E.
        rewrite <- !app_assoc in E.
        enough (X : i :: is = i' :: is' /\ rest = rest') by (destruct X as [-> ->]; auto).
        clear T T' N N' L l h. revert E F F' IH. generalize (i :: is) (i' :: is'). clear i is i' is'.
        intros is. induction is as [|i is IHis]; intros [|i' is'] E F F' IH.
        -- cbn in E. injection E as ->. auto.
        -- exfalso. inversion F' as [|? ? F1 F2]; subst. destruct (item_ok (S k) i' F1) as (x & ls & X). unfold item_lines in E. cbn [flat_map app] in E. rewrite X in E. cbn in E. injection E as E _. lia.
        -- exfalso. inversion F as [|? ? F1 F2]; subst. destruct (item_ok (S k) i F1) as (x & ls & X). unfold item_lines in E. cbn [flat_map app] in E. rewrite X in E. cbn in E. injection E as E _. lia.
        -- inversion F as [|? ? F1 F2]; subst. inversion F' as [|? ? F1' F2']; subst. inversion IH as [|? ? IH1 IH2]; subst.
           unfold item_lines in E. cbn [flat_map] in E. rewrite <- !app_assoc in E. fold (item_lines (S k) is) in E. fold (item_lines (S k) is') in E.
           assert (EN : fst i = fst i').
           { destruct (item_ok (S k) i F1) as (x & ls & X). destruct (item_ok (S k) i' F1') as (x' & ls' & X'). rewrite X, X' in E. cbn [app] in E.
             injection E as E _. destruct F1 as ((C & _) & _). destruct F1' as ((C' & _) & _). exact (colon_inj _ _ _ _ C C' E). }
           destruct i as [n d], i' as [n' d']. cbn [fst snd] in *. subst n'. destruct F1 as (Nm & T), F1' as (_ & T').
           assert (ED : d = d' /\ item_lines (S k) is ++ [(k, str "}")] ++ rest = item_lines (S k) is' ++ [(k, str "}")] ++ rest').
           { destruct T as [[NT T]|[YT (t & -> & Nt)]], T' as [[NT' T']|[YT' (t' & -> & Nt')]]; try contradiction.
             - apply (IH1 d' (S k) (n ++ str ": ")); auto. apply name_label, Nm.
             - destruct (leaf_inj (S k) (n ++ str ": ") t t' _ _ (name_label _ Nm) Nt Nt' E) as [-> ?]. auto. }
           destruct ED as [-> E']. destruct (IHis is' E' F2 F2' IH2) as [-> ->]. auto.
Qed.

Lemma ok_lines d : forall k l, tame d -> label l -> (exists b c, l = b :: c /\ b <> dot) -> Forall ok_line (doc_lines k l d).
Proof.
  induction d as [t|h is IH] using doc_ind'; intros k l T L (b & c & El & Hb).
  - inversion T as [? W|]; subst. destruct L as [L _]. cbn [doc_lines]. rewrite split_nl_one by (rewrite in_app_iff; destruct W; tauto).
    repeat constructor; cbn [snd]; [rewrite in_app_iff; destruct W; tauto|]. cbn. eauto.
  - inversion T as [|? ? N F]; subst. destruct L as [L _].
    assert (O : forall k z, ~ In nl z -> ok_line (k, (b :: c) ++ h ++ z)).
    { intros k0 z Z. split; cbn [snd]; [rewrite !in_app_iff; tauto|]. cbn. eauto. }
    assert (I : forall k, Forall ok_line (item_lines k is)).
    { intros k0. clear O T. induction F as [|i is (Nm & Fi) F IHF]; [constructor|]. inversion IH; subst. unfold item_lines. cbn [flat_map].
      apply Forall_app. split; [|apply IHF; assumption].
      assert (Sl : exists b c, fst i ++ str ": " = b :: c /\ b <> dot).
      { destruct Nm as (_ & _ & b0 & c0 & -> & ?). cbn. eauto. }
      destruct Fi as [[_ Ti]|[_ (t & -> & Nt)]]; [apply H1; auto; apply name_label, Nm|].
      cbn [doc_lines]. destruct (name_label _ Nm) as [NL _]. rewrite split_nl_one by (rewrite in_app_iff; tauto).
      repeat constructor; cbn [snd]; [rewrite in_app_iff; tauto|]. destruct Sl as (b0 & c0 & -> & ?). cbn. eauto. }
    cbn [doc_lines]. destruct is as [|i is]; [repeat constructor; apply O; cbn; intuition discriminate|].
    constructor; [apply O; cbn; intuition discriminate|]. apply Forall_app. split; [apply I|]. repeat constructor; cbn; [intuition discriminate|].
    exists "}"%char, []. split; [reflexivity|discriminate].
Qed.
Lemma ok_top h is : tame (Block (str "*" ++ h) is) -> Forall ok_line (doc_lines 0 [] (Block (str "*" ++ h) is)).
Proof.
  intros T. inversion T as [|? ? N F]; subst.
  assert (O : forall z, ~ In nl z -> ok_line (0, (str "*" ++ h) ++ z)).
  { intros z Z. split; cbn [snd]; [rewrite in_app_iff; tauto|]. cbn. exists "*"%char, (h ++ z). split; [reflexivity|discriminate]. }
  assert (I : Forall ok_line (item_lines 1 is)).
  { clear O T. induction F as [|i is (Nm & Fi) F IHF]; [constructor|]. unfold item_lines. cbn [flat_map].
    apply Forall_app. split; [|exact IHF].
    assert (Sl : exists b c, fst i ++ str ": " = b :: c /\ b <> dot).
    { destruct Nm as (_ & _ & b0 & c0 & -> & ?). cbn. eauto. }
    destruct Fi as [[_ Ti]|[_ (t & -> & Nt)]]; [apply ok_lines; auto; apply name_label, Nm|].
    cbn [doc_lines]. destruct (name_label _ Nm) as [NL _]. rewrite split_nl_one by (rewrite in_app_iff; tauto).
    repeat constructor; cbn [snd]; [rewrite in_app_iff; tauto|]. destruct Sl as (b0 & c0 & -> & ?). cbn. eauto. }
  cbn [doc_lines]. destruct is as [|i is]; [repeat constructor; apply O; cbn; intuition discriminate|].
  constructor; [apply O; cbn; intuition discriminate|]. apply Forall_app. split; [exact I|]. repeat constructor; cbn; [intuition discriminate|].
  exists "}"%char, []. split; [reflexivity|discriminate].
Qed.
Lemma page_doc_inj h is h' is' : tame (Block (str "*" ++ h) is) -> tame (Block (str "*" ++ h') is') ->
  page 0 (doc_lines 0 [] (Block (str "*" ++ h) is)) = page 0 (doc_lines 0 [] (Block (str "*" ++ h') is')) ->
  Block (str "*" ++ h) is = Block (str "*" ++ h') is'.
Proof.
  intros T T' E. apply page_inj in E; [|apply ok_top; assumption..].
  apply (lines_inj _ _ 0 [] [] [] T T'); [split; [intros []|reflexivity]|]. now rewrite E.
Qed.

(** ** The documents of trees are tame *)
Definition digits (t : text) : Prop := t <> [] /\ Forall (fun c => In c (str "0123456789")) t.
Lemma uint_digits u : Forall (fun c => In c (str "0123456789")) (str (NilEmpty.string_of_uint u)).
Proof. induction u; cbn; [constructor|constructor; [cbn; tauto|assumption]..]. Qed.
Lemma zero_digits u : digits (str (NilZero.string_of_uint u)).
Proof. destruct u; (split; [discriminate|]); try apply uint_digits. repeat constructor. Qed.
Lemma digits_name t : digits t -> name t.
Proof.
  intros [Ne F]. rewrite Forall_forall in F. repeat split.
  - intros I. apply F in I. cbn in I. intuition discriminate.
  - intros I. apply F in I. cbn in I. intuition discriminate.
  - destruct t as [|b c]; [contradiction|]. exists b, c. split; [reflexivity|]. intros ->. specialize (F dot (or_introl eq_refl)). cbn in F. intuition discriminate.
Qed.
Lemma last_in {A} (l : list A) d : l <> [] -> In (last l d) l.
Proof. induction l as [|x [|y l] IH]; intros H; [contradiction|now left|]. right. apply IH. discriminate. Qed.
Lemma digits_word t : digits t -> tidy t.
Proof.
  intros [Ne F]. rewrite Forall_forall in F. repeat split.
  - intros I. apply F in I. cbn in I. intuition discriminate.
  - intros E. pose proof (last_in t sp Ne) as I. rewrite E in I. apply F in I. cbn in I. intuition discriminate.
  - intros E. pose proof (last_in t sp Ne) as I. rewrite E in I. apply F in I. cbn in I. intuition discriminate.
Qed.
Lemma digits_not_type t : digits t -> t <> str "Type".
Proof. intros [_ F] ->. inversion F as [|? ? I _]. cbn in I. intuition discriminate. Qed.
Lemma Quote_word wide_print s : tidy (Quote wide_print s).
Proof.
  split; [apply Quote_nl|]. unfold Quote. rewrite app_comm_cons, last_last. split; discriminate.
Qed.

Definition tame_opt (o : option doc) : Prop := match o with Some d => tame d | None => True end.
Definition tame_field (f : string * option doc) : Prop :=
  name (str (fst f)) /\ (fst f <> "Type"%string /\ tame_opt (snd f) \/ fst f = "Type"%string /\ exists t, snd f = Some (Leaf t) /\ ~ In nl t).
Lemma str_inj a b : str a = str b -> a = b.
Proof. intros E. rewrite <- (string_of_list_ascii_of_string a), <- (string_of_list_ascii_of_string b). unfold str in E. now rewrite E. Qed.
Lemma tame_struct ty fs : ~ In nl (str ty) -> Forall tame_field fs -> tame (struct ty fs).
Proof.
  intros N F. unfold struct. constructor; [rewrite in_app_iff; cbn; intuition discriminate|].
  induction F as [|[n o] fs (Nm & H) F IH]; [constructor|]. cbn [flat_map fst snd] in *. apply Forall_app. split; [|exact IH].
  destruct o as [d|]; [|constructor]. constructor; [|constructor]. cbn [fst snd]. split; [exact Nm|].
  destruct H as [[H T]|[-> (t & E & Nt)]].
  - left. split; [intros E; apply H, str_inj, E|exact T].
  - right. split; [reflexivity|]. injection E as ->. eauto.
Qed.
Lemma tame_indexed ds : Forall tame ds -> forall i, Forall (fun i => name (fst i) /\
    (fst i <> str "Type" /\ tame (snd i) \/ fst i = str "Type" /\ exists t, snd i = Leaf t /\ ~ In nl t)) (indexed i ds).
Proof.
  induction 1; intros i; cbn; constructor; auto. cbn. assert (D : digits (dec i)) by apply zero_digits.
  split; [apply digits_name, D|]. left. split; [apply digits_not_type, D|assumption].
Qed.
Lemma nil_word : tidy (str "nil"). Proof. repeat split; cbn; try (intuition discriminate). Qed.
Lemma tame_slice ty ds : ~ In nl (str ty) -> Forall tame ds -> tame (slice ty ds).
Proof.
  intros N F. unfold slice. destruct ds as [|d ds]; [constructor; apply nil_word|].
  constructor; [|apply tame_indexed, F]. rewrite !in_app_iff. pose proof (dec_nl (List.length (d :: ds))). cbn in *. intuition discriminate.
Qed.
Lemma tame_some_slice ty ds : ~ In nl (str ty) -> Forall tame ds -> tame_opt (some_slice ty ds).
Proof. intros N F. pose proof (tame_slice ty ds N F). destruct ds; [exact I|exact H]. Qed.

Lemma a_field n o : name (str n) -> n <> "Type"%string -> tame_opt o -> tame_field (n, o).
Proof. split; [assumption|]. left. auto. Qed.
Ltac a_name := split; [cbn; intuition discriminate|split; [cbn; intuition discriminate|eexists; eexists; split; [reflexivity|discriminate]]].
Ltac tame_fields := apply tame_struct; [cbn; intuition discriminate|repeat (apply Forall_cons || apply Forall_nil)].
Ltac tame_f := apply a_field; [a_name|discriminate|].
Lemma tame_pos p : tame_opt (pos_doc p). Proof. apply tame_leaf, digits_word, zero_digits. Qed.
Lemma tame_bool b : tame_opt (bool_doc b). Proof. apply tame_leaf. destruct b; repeat split; cbn; try (intuition discriminate). Qed.
Lemma tame_lit k : tame_opt (lit_doc k). Proof. apply tame_leaf. destruct k; repeat split; cbn; try (intuition discriminate). Qed.
Lemma tame_tok o : tame_opt (tok_doc o). Proof. apply tame_leaf. destruct o; repeat split; cbn; try (intuition discriminate). Qed.

Section Trees.
  Variable wide_print : N -> bool.
  Lemma tame_string s : tame_opt (string_doc wide_print s). Proof. apply tame_leaf, Quote_word. Qed.
  Lemma tame_ident p n : tame (ident_doc wide_print p n).
  Proof. unfold ident_doc. tame_fields; tame_f; [apply tame_pos|apply tame_string]. Qed.
  Lemma tame_gexpr e : supported e -> tame (gexpr_doc wide_print e).
  Proof.
    induction e using gexpr_ind'; intros P; cbn [gexpr_doc supported] in *.
    - apply tame_ident.
    - tame_fields; tame_f; [apply tame_pos|apply tame_lit|apply tame_string].
    - specialize (IHe P). tame_fields; tame_f; try apply tame_pos. destruct e; try exact I; exact IHe.
    - specialize (IHe P). tame_fields; tame_f; try apply tame_pos; try apply tame_tok. destruct e; try exact I; exact IHe.
    - destruct P as [P1 P2]. specialize (IHe1 P1). specialize (IHe2 P2). tame_fields; tame_f; try apply tame_pos; try apply tame_tok.
      + destruct e1; try exact I; exact IHe1.
      + destruct e2; try exact I; exact IHe2.
    - destruct P as [P1 P2]. specialize (IHe P1). tame_fields; tame_f; try apply tame_pos.
      + destruct e; try exact I; exact IHe.
      + apply tame_some_slice; [cbn; intuition discriminate|]. clear -H P2. induction H as [|a l Ha H IH]; [constructor|]. cbn in *. constructor; [apply Ha|apply IH]; tauto.
    - specialize (IHe P). tame_fields; tame_f; try apply tame_pos. destruct e; try exact I; exact IHe.
    - specialize (IHe P). tame_fields; tame_f.
      + destruct e; try exact I; exact IHe.
      + apply tame_ident.
    - destruct P.
    - apply tame_leaf, nil_word.
  Qed.
  Lemma tame_expr e : supported e -> tame (expr_doc wide_print e).
  Proof. intros P. pose proof (tame_gexpr e P). unfold expr_doc. tame_fields. tame_f. destruct e; try exact I; exact H. Qed.
  Lemma tame_optexpr o : plain_opt o -> tame_opt (option_map (expr_doc wide_print) o).
  Proof. destruct o; [exact (tame_expr g)|]. intros _. exact I. Qed.
  Lemma tame_part p : dump_part p -> tame (part_doc p).
  Proof.
    destruct p; cbn; intros D; [apply tame_leaf, D| |destruct D]. apply tame_slice; [cbn; intuition discriminate|].
    destruct D as [_ D]. induction D; cbn; constructor; [apply tame_leaf|]; assumption.
  Qed.
  Lemma tame_op o : dump_op o -> tame (op_doc o).
  Proof.
    destruct o; cbn; intros D; [apply tame_leaf, D| |apply tame_leaf, nil_word]. apply tame_slice; [cbn; intuition discriminate|].
    destruct D as [_ D]. induction D; cbn; constructor; [apply tame_part|]; assumption.
  Qed.
  Lemma tame_value v : dump_value v -> tame (value_doc wide_print v).
  Proof.
    induction v using value_ind'; intros D; inversion D as [? D1 D2 D3 D4 D5 D6|? D1|? D1]; subst; cbn [value_doc].
    - tame_fields; try tame_f.
      + apply tame_leaf, D1.
      + pose proof (tame_op _ D2) as T. destruct (s_op s); try exact I; exact T.
      + split; [a_name|]. right. split; [reflexivity|]. exists (s_type s). split; [reflexivity|exact D3].
      + apply tame_optexpr, D4.
      + apply tame_optexpr, D5.
      + apply tame_some_slice; [cbn; intuition discriminate|]. clear -H D6. induction H as [|a l Ha H IH]; [constructor|]. inversion D6; subst. cbn. constructor; auto.
      + apply tame_bool.
      + apply tame_bool.
    - apply tame_expr, D1.
    - apply tame_leaf, D1.
  Qed.
  Lemma tame_rule r : dump_rule r -> tame (rule_doc wide_print r).
  Proof.
    intros (P1 & P2 & P3). pose proof (tame_value _ P1) as V1. pose proof (tame_value _ P3) as V3. unfold rule_doc.
    tame_fields; tame_f.
    - destruct (r_match r); try exact I; exact V1.
    - apply tame_optexpr, P2.
    - apply tame_string.
    - destruct (r_result r); try exact I; exact V3.
  Qed.
  Lemma tame_file f : Forall dump_rule (f_rules f) -> tame (file_doc wide_print f).
  Proof.
    intros P. unfold file_doc. tame_fields. tame_f. apply tame_some_slice; [cbn; intuition discriminate|].
    induction P; cbn; constructor; [apply tame_rule|]; assumption.
  Qed.
End Trees.

(** ** The document determines the tree *)
Lemma indexed_inj ds : forall ds' i, indexed i ds = indexed i ds' -> ds = ds'.
Proof. induction ds as [|d ds IH]; intros [|d' ds'] i E; cbn in E; try discriminate; [reflexivity|]. injection E as -> E. f_equal. eauto. Qed.
Lemma slice_inj ty ds ds' : slice ty ds = slice ty ds' -> ds = ds'.
Proof. unfold slice. destruct ds, ds'; intros E; try discriminate; [reflexivity|]. injection E as _ E1 E2. subst. f_equal. eauto using indexed_inj. Qed.
Lemma some_slice_inj ty ds ds' : some_slice ty ds = some_slice ty ds' -> ds = ds'.
Proof. unfold some_slice. destruct ds as [|d ds], ds' as [|d' ds']; intros E; try discriminate; [reflexivity|]. exact (slice_inj ty _ _ (f_equal (fun o => match o with Some d => d | None => Leaf [] end) E)). Qed.
Lemma map_inj {A B} (f : A -> B) (P : A -> Prop) l : Forall (fun a => forall a', P a' -> f a = f a' -> a = a') l ->
  forall l', Forall P l' -> map f l = map f l' -> l = l'.
Proof.
  induction 1 as [|a l H F IH]; intros l' F' E; destruct F' as [|a' l' P' F']; cbn in E; try discriminate; [reflexivity|].
  injection E as E1 E2. f_equal; auto.
Qed.
Lemma pos_inj p p' : decN p = decN p' -> p = p'.
Proof.
  unfold decN. intros E. apply str_inj in E.
  assert (X : forall n, NilZero.uint_of_string (NilZero.string_of_uint (N.to_uint n)) = Some (N.to_uint n)).
  { intros n. apply NilZero.usu. intros H. pose proof (DecimalN.Unsigned.of_to n) as O. rewrite H in O. cbn in O. subst n. discriminate. }
  pose proof (X p) as X1. pose proof (X p') as X2. rewrite E in X1. rewrite X1 in X2. injection X2 as X2. apply DecimalN.Unsigned.to_uint_inj. exact X2.
Qed.
Lemma pos_doc_inj p p' : pos_doc p = pos_doc p' -> p = p'. Proof. intros E. injection E as E. now apply pos_inj. Qed.
Lemma bool_doc_inj b b' : bool_doc b = bool_doc b' -> b = b'. Proof. destruct b, b'; intros E; reflexivity || discriminate. Qed.
Lemma lit_doc_inj k k' : lit_doc k = lit_doc k' -> k = k'. Proof. destruct k, k'; intros E; reflexivity || discriminate. Qed.
Lemma tok_doc_inj k k' : tok_doc k = tok_doc k' -> k = k'. Proof. destruct k, k'; intros E; reflexivity || discriminate. Qed.

(** Structs of the same type with the same labels. *)
Lemma kept_none n fs fs' gs : ~ In n (map fst fs) -> forall d, kept fs <> (str n, d) :: kept gs ++ fs'.
Proof.
  intros N d. induction fs as [|[m o] fs IH]; [discriminate|]. unfold kept. cbn [flat_map fst snd]. destruct o as [e|].
  - cbn. intros E. injection E as E _. apply str_inj in E. subst. apply N. now left.
  - cbn. apply IH. intros I. apply N. now right.
Qed.
Lemma kept_inj ns : forall os os', NoDup ns -> List.length os = List.length ns -> List.length os' = List.length ns ->
  kept (combine ns os) = kept (combine ns os') -> os = os'.
Proof.
  induction ns as [|n ns IH]; intros [|o os] [|o' os'] D L L' E; try discriminate; [reflexivity|].
  inversion D as [|? ? D1 D2]; subst. injection L as L. injection L' as L'. unfold kept in E. cbn [combine flat_map fst snd] in E.
  fold (kept (combine ns os)) in E. fold (kept (combine ns os')) in E.
  assert (Fst : forall os : list (option doc), ~ In n (map fst (combine ns os))).
  { intros os0 I. apply D1. clear -I. revert os0 I. induction ns; intros [|x os0] I; cbn in *; try tauto. destruct I; [now left|right; eauto]. }
  destruct o as [d|], o' as [d'|]; cbn [app] in E.
  - injection E as -> E. f_equal. eauto.
  - symmetry in E. exfalso. apply (kept_none n (combine ns os') [] (combine ns os) (Fst os') d). rewrite List.app_nil_r. exact E.
  - exfalso. apply (kept_none n (combine ns os) [] (combine ns os') (Fst os) d'). rewrite List.app_nil_r. exact E.
  - f_equal. eauto.
Qed.
Lemma struct_inj ty ty' ns ns' os os' : struct ty (combine ns os) = struct ty' (combine ns' os') -> ty = ty' /\
  (ns = ns' -> NoDup ns -> List.length os = List.length ns -> List.length os' = List.length ns -> os = os').
Proof.
  unfold struct. intros E. injection E as E1 E2. split; [now apply str_inj|]. intros <- D L L'. eapply kept_inj; eauto.
Qed.
Ltac nodup := repeat constructor; cbn; intuition discriminate.

Lemma field_gexpr (wide_print : N -> bool) e e' :
  match e with GNil => None | _ => Some (gexpr_doc wide_print e) end = match e' with GNil => None | _ => Some (gexpr_doc wide_print e') end ->
  gexpr_doc wide_print e = gexpr_doc wide_print e'.
Proof. destruct e, e'; intros E; try discriminate E; try (injection E as E; exact E); try reflexivity; cbn in *; congruence. Qed.

Ltac struct_of E X :=
  match type of E with
  | struct ?ty ?fs = struct ?ty' ?fs' =>
      let ns := eval cbv [map fst] in (map fst fs) in let os := eval cbv [map snd] in (map snd fs) in
      let ns' := eval cbv [map fst] in (map fst fs') in let os' := eval cbv [map snd] in (map snd fs') in
      pose proof (struct_inj ty ty' ns ns' os os' E) as X
  end.
Ltac same_struct E :=
  let X := fresh in struct_of E X; destruct X as [_ X]; specialize (X eq_refl ltac:(nodup) eq_refl eq_refl).
Ltac other_struct E := exfalso; let X := fresh in struct_of E X; destruct X as [X _]; discriminate X.

Section Inj.
  Variable wide_print : N -> bool.
  Lemma string_doc_inj s s' : string_doc wide_print s = string_doc wide_print s' -> s = s'.
  Proof. intros E. assert (Quote wide_print s = Quote wide_print s') as X by (unfold string_doc in E; congruence). exact (Quote_inj _ _ _ X). Qed.
  Lemma ident_doc_inj p n p' n' : ident_doc wide_print p n = ident_doc wide_print p' n' -> p = p' /\ n = n'.
  Proof.
    intros E. unfold ident_doc in E. same_struct E. split.
    - apply pos_doc_inj. congruence.
    - apply string_doc_inj. congruence.
  Qed.
  Definition ty_of (d : doc) : text := match d with Leaf _ => [] | Block h _ => h end.
  Lemma list_cons_inj {A} (a b : A) l m : a :: l = b :: m -> a = b /\ l = m. Proof. intros E. injection E. auto. Qed.
  Ltac split_list X := repeat (apply list_cons_inj in X; let Y := fresh "Y" in destruct X as [Y X]); clear X.
  Ltac use_docs :=
    repeat match goal with
    | Y : pos_doc _ = pos_doc _ |- _ => apply pos_doc_inj in Y; subst
    | Y : tok_doc _ = tok_doc _ |- _ => apply tok_doc_inj in Y; subst
    | Y : lit_doc _ = lit_doc _ |- _ => apply lit_doc_inj in Y; subst
    | Y : string_doc _ _ = string_doc _ _ |- _ => apply string_doc_inj in Y; subst
    | Y : match _ with GNil => _ | _ => _ end = match _ with GNil => _ | _ => _ end |- _ => apply field_gexpr in Y
    end.

  Lemma some_inj {A} (a b : A) : Some a = Some b -> a = b. Proof. congruence. Qed.
  Lemma gexpr_doc_inj e : forall e', supported e -> supported e' -> gexpr_doc wide_print e = gexpr_doc wide_print e' -> e = e'.
  Proof.
    induction e using gexpr_ind'; intros e' P P' E; destruct e' as [p' n'|p' k' v'|l' x' r'|p' o' x'|x' p' o' y'|f' l' args' el' r'|p' x'|x' p' s'|t'|];
      cbn [supported] in P, P'; try (destruct P; fail); try (destruct P'; fail); cbn [gexpr_doc] in E; try discriminate E;
      try reflexivity; try (destruct (ident_doc_inj _ _ _ _ E) as [-> ->]; reflexivity); try (other_struct E; fail);
      try (unfold ident_doc in E; other_struct E; fail);
      match type of E with struct _ _ = _ => let X := fresh "X" in struct_of E X; destruct X as [_ X]; specialize (X eq_refl ltac:(nodup) eq_refl eq_refl); split_list X end;
      use_docs.
    - reflexivity.
    - f_equal. apply IHe; assumption.
    - f_equal. apply IHe; assumption.
    - destruct P, P'. f_equal; [apply IHe1|apply IHe2]; assumption.
    - destruct P as [P1 P2], P' as [P1' P2']. f_equal; [apply IHe; assumption|].
      match goal with Y : some_slice _ _ = some_slice _ _ |- _ => apply some_slice_inj in Y; rename Y into YA end.
      apply (map_inj (gexpr_doc wide_print) supported args) in YA; [exact YA| |].
      + clear -H P2. induction H as [|a l Ha H IH]; [constructor|]. cbn in P2. constructor; [|apply IH; tauto]. intros a' S. apply Ha; tauto.
      + clear -P2'. induction args'; [constructor|]. cbn in P2'. constructor; tauto.
    - f_equal. apply IHe; assumption.
    - match goal with Y : Some _ = Some _ |- _ => apply some_inj in Y; destruct (ident_doc_inj _ _ _ _ Y) as [-> ->] end. f_equal. apply IHe; assumption.
  Qed.
  Lemma expr_doc_inj e e' : supported e -> supported e' -> expr_doc wide_print e = expr_doc wide_print e' -> e = e'.
  Proof.
    intros P P' E. unfold expr_doc in E. let X := fresh "X" in struct_of E X; destruct X as [_ X]; specialize (X eq_refl ltac:(nodup) eq_refl eq_refl); split_list X.
    use_docs. apply gexpr_doc_inj; assumption.
  Qed.
  Lemma optexpr_inj o o' : plain_opt o -> plain_opt o' -> option_map (expr_doc wide_print) o = option_map (expr_doc wide_print) o' -> o = o'.
  Proof. destruct o, o'; cbn [option_map]; intros P P' E; try discriminate E; [|reflexivity]. apply some_inj in E. f_equal. apply expr_doc_inj; assumption. Qed.

  Lemma part_doc_inj p p' : dump_part p -> dump_part p' -> part_doc p = part_doc p' -> p = p'.
  Proof.
    destruct p as [c|a|], p' as [c'|a'|]; cbn [dump_part part_doc]; intros D D' E; try contradiction.
    - congruence.
    - exfalso. destruct D' as [D' _]. destruct a'; [contradiction|discriminate].
    - exfalso. destruct D as [D _]. destruct a; [contradiction|discriminate].
    - apply slice_inj in E. f_equal. clear D D'. revert a' E. induction a; intros [|b a'] E; cbn in E; try discriminate; [reflexivity|]. injection E as -> E. f_equal; auto.
  Qed.
  Lemma op_field_inj o o' : dump_op o -> dump_op o' ->
    match o with Opcode c => Some (op_doc (Opcode c)) | OpcodeParts ps => Some (op_doc (OpcodeParts ps)) | NilOp => None end =
    match o' with Opcode c => Some (op_doc (Opcode c)) | OpcodeParts ps => Some (op_doc (OpcodeParts ps)) | NilOp => None end -> o = o'.
  Proof.
    destruct o as [c|ps|], o' as [c'|ps'|]; cbn [dump_op]; intros D D' E; try discriminate E; try reflexivity; apply some_inj in E; cbn [op_doc] in E.
    - congruence.
    - exfalso. destruct D' as [D' _]. destruct ps'; [contradiction|discriminate].
    - exfalso. destruct D as [D _]. destruct ps; [contradiction|discriminate].
    - apply slice_inj in E. f_equal. destruct D as [_ D], D' as [_ D']. apply (map_inj part_doc dump_part) in E; [exact E| |exact D'].
      eapply Forall_impl; [|exact D]. intros a Ha a' Ha'. apply part_doc_inj; assumption.
  Qed.
  Lemma value_doc_inj v : forall v', dump_value v -> dump_value v' -> value_doc wide_print v = value_doc wide_print v' -> v = v'.
  Proof.
    induction v using value_ind'; intros v' D D' E;
      inversion D as [? D1 D2 D3 D4 D5 D6|? D1|? D1]; subst; inversion D' as [s' D1' D2' D3' D4' D5' D6'|e' D1'|x' D1']; subst; cbn [value_doc] in E;
      try discriminate E; try (unfold expr_doc in E; other_struct E; fail).
    - let X := fresh "X" in struct_of E X; destruct X as [_ X]; specialize (X eq_refl ltac:(nodup) eq_refl eq_refl); split_list X.
      destruct s as [b o t ai au args el tr], s' as [b' o' t' ai' au' args' el' tr']. cbn [s_binding s_op s_type s_auxint s_aux s_args s_ellipsis s_trailing] in *.
      f_equal. f_equal.
      + congruence.
      + apply op_field_inj; assumption.
      + congruence.
      + apply optexpr_inj; assumption.
      + apply optexpr_inj; assumption.
      + match goal with Y : some_slice _ _ = some_slice _ _ |- _ => apply some_slice_inj in Y; apply (map_inj (value_doc wide_print) dump_value) in Y; [exact Y| |exact D6'] end.
        clear -H D6. induction H as [|a l Ha H IH]; [constructor|]. inversion D6; subst. constructor; [|apply IH; assumption]. intros a' Da' Ea. apply Ha; assumption.
      + apply bool_doc_inj. assumption.
      + apply bool_doc_inj. assumption.
    - f_equal. apply expr_doc_inj; assumption.
    - congruence.
  Qed.
  Lemma value_field_inj v v' : dump_value v -> dump_value v' ->
    match v with NilValue => None | _ => Some (value_doc wide_print v) end = match v' with NilValue => None | _ => Some (value_doc wide_print v') end -> v = v'.
  Proof.
    intros D D' E. apply value_doc_inj; [assumption..|]. destruct D, D'; apply some_inj in E; exact E.
  Qed.
  Lemma rule_doc_inj r r' : dump_rule r -> dump_rule r' -> rule_doc wide_print r = rule_doc wide_print r' -> r = r'.
  Proof.
    intros (D1 & D2 & D3) (D1' & D2' & D3') E. unfold rule_doc in E.
    let X := fresh "X" in struct_of E X; destruct X as [_ X]; specialize (X eq_refl ltac:(nodup) eq_refl eq_refl); split_list X.
    destruct r as [m c b q], r' as [m' c' b' q']. cbn [r_match r_cond r_block r_result] in *. f_equal.
    - apply value_field_inj; assumption.
    - apply optexpr_inj; assumption.
    - apply string_doc_inj. assumption.
    - apply value_field_inj; assumption.
  Qed.
  Lemma file_doc_inj f f' : Forall dump_rule (f_rules f) -> Forall dump_rule (f_rules f') -> file_doc wide_print f = file_doc wide_print f' -> f = f'.
  Proof.
    intros D D' E. unfold file_doc in E. let X := fresh "X" in struct_of E X; destruct X as [_ X]; specialize (X eq_refl ltac:(nodup) eq_refl eq_refl); split_list X.
    match goal with Y : some_slice _ _ = some_slice _ _ |- _ => apply some_slice_inj in Y; apply (map_inj (rule_doc wide_print) dump_rule) in Y; [|clear Y|exact D'] end.
    - destruct f, f'. cbn in *. congruence.
    - eapply Forall_impl; [|exact D]. intros a Ha a' Ha'. apply rule_doc_inj; assumption.
  Qed.

  Lemma node_doc_inj n n' : dump_node n -> dump_node n' -> node_doc wide_print n = node_doc wide_print n' -> n = n'.
  Proof.
    destruct n as [f|r|s|e| | | | |], n' as [f'|r'|s'|e'| | | | |]; cbn [dump_node node_doc value_doc]; intros D D' E; try contradiction;
      try (unfold file_doc, rule_doc, expr_doc in E; other_struct E; fail).
    - f_equal. apply file_doc_inj; assumption.
    - f_equal. apply rule_doc_inj; assumption.
    - assert (X : SExp s = SExp s') by (apply value_doc_inj; assumption). congruence.
    - f_equal. apply expr_doc_inj; assumption.
  Qed.
  Lemma tame_node n : dump_node n -> tame (node_doc wide_print n) /\ exists h is, node_doc wide_print n = Block (str "*" ++ h) is.
  Proof.
    destruct n; cbn [dump_node node_doc]; intros D; try contradiction.
    - split; [apply tame_file, D|]. do 2 eexists. reflexivity.
    - split; [apply tame_rule, D|]. do 2 eexists. reflexivity.
    - split; [apply tame_value, D|]. do 2 eexists. reflexivity.
    - split; [apply tame_expr, D|]. do 2 eexists. reflexivity.
  Qed.
  Lemma dump_page_inj n n' : dump_node n -> dump_node n' -> dump_page wide_print n = dump_page wide_print n' -> n = n'.
  Proof.
    intros D D' E. apply node_doc_inj; [assumption..|]. unfold dump_page in E.
    destruct (tame_node n D) as (T & h & is & Q). destruct (tame_node n' D') as (T' & h' & is' & Q'). rewrite Q, Q' in *.
    apply page_doc_inj; assumption.
  Qed.
End Inj.

Lemma dump_plain_value v : dump_value v -> plain_value v.
Proof.
  induction v using value_ind'; intros D; inversion D; subst; cbn; auto. repeat split; auto.
  match goal with F : Forall dump_value _ |- _ => clear -H F; induction H as [|a l Ha H IH]; [exact I|]; inversion F; subst; cbn; auto end.
Qed.
Lemma dump_plain_rule r : dump_rule r -> plain_rule r.
Proof. intros (A & B & C). repeat split; auto using dump_plain_value. Qed.
Lemma dump_plain n : dump_node n -> plain_node n.
Proof.
  destruct n; cbn [dump_node plain_node]; auto using dump_plain_rule, dump_plain_value; try tauto.
  intros F. eapply Forall_impl; [|exact F]. apply dump_plain_rule.
Qed.
