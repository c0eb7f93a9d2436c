(** The words that the scanner of GoParser.v reads are those of SpecWords.v. *)
From Verif Require Import Text GoAst Utf8 GoParser SpecUtf8 SpecGo SpecScan SpecWords SynShape GoChars GoNames GoLex.
From Coq Require Import NArith Arith Bool Lia.
Open Scope nat_scope.
Open Scope list_scope.

Lemma digit_iff c : is_digit c = true <-> decimal_digit c.
Proof. unfold decimal_digit, from_to. destruct c as [[] [] [] [] [] [] [] []]; cbv; split; intros H; try discriminate; try reflexivity; try (split; lia); exfalso; lia. Qed.
Lemma oct_iff c : is_oct c = true <-> octal_digit c.
Proof. unfold octal_digit, from_to. destruct c as [[] [] [] [] [] [] [] []]; cbv; split; intros H; try discriminate; try reflexivity; try (split; lia); exfalso; lia. Qed.
Lemma hex_iff c : is_hex c = true <-> hex_digit c.
Proof. unfold hex_digit, from_to. destruct c as [[] [] [] [] [] [] [] []]; cbv; split; intros H; try discriminate; try reflexivity; try lia; exfalso; lia. Qed.
Lemma keyword_iff x : is_keyword x = true <-> go_keyword x.
Proof.
  unfold is_keyword. rewrite existsb_exists. split.
  - intros (k & K & E). apply text_eqb_eq in E. subst x. cbn [keywords In] in K. unfold go_keyword. cbn [map In].
    repeat (destruct K as [<-|K]; [tauto|]). destruct K.
  - unfold go_keyword. intros K. apply in_map_iff in K. destruct K as (k & <- & K). exists k. split; [|apply text_eqb_eq; reflexivity].
    cbn [In] in K. cbn [keywords In]. tauto.
Qed.
Lemma false_concat s : name_text false s <-> exists ks, s = List.concat ks /\ Forall utf8_char ks /\ Forall (fun k => go_letter k \/ go_digit k) ks.
Proof.
  split.
  - remember false as first eqn:F. induction 1 as [|first k t [K N] T IH]; [exists []; repeat constructor|]. subst. destruct (IH eq_refl) as (ks & -> & A & B).
    exists (k :: ks). split; [reflexivity|]. split; constructor; try assumption. destruct N as [N|[_ N]]; auto.
  - intros (ks & -> & A & B). induction ks as [|k ks IH]; [constructor|]. inversion A; subst. inversion B; subst. cbn [List.concat]. constructor; [|auto].
    split; [assumption|]. match goal with H : _ \/ _ |- _ => destruct H; auto end.
Qed.
Theorem name_words x : scanned_name x <-> go_identifier x.
Proof.
  rewrite scanned_name_iff. unfold name_chars, go_identifier. split.
  - intros (c & t & -> & L & F & K & G). apply good_name_iff in G. inversion G as [|? k s [U [N|[N _]]] T E1 E]; [|discriminate]. apply false_concat in T. destruct T as (ks & -> & A & B).
    exists k, ks. split; [reflexivity|]. split; [constructor; assumption|]. split; [exact N|]. split; [exact B|]. rewrite E. intros Kw. apply keyword_iff in Kw. congruence.
  - intros (k & ks & -> & A & L & B & K). inversion A as [|? ? Uk Uks]; subst.
    assert (G : name_text true (k ++ List.concat ks)). { constructor; [split; auto|]. apply false_concat. eauto. }
    pose proof (text_bytes _ _ G) as F. assert (Ne : k ++ List.concat ks <> []). { intros X. apply app_eq_nil in X. destruct X as [-> _]. destruct (char_len _ Uk eq_refl). }
    destruct (k ++ List.concat ks) as [|c t] eqn:E; [congruence|]. exists c, t. split; [reflexivity|]. split; [exact (text_head c t G)|]. inversion F; subst. split; [assumption|]. split.
    + destruct (is_keyword (c :: t)) eqn:Q; [|reflexivity]. apply keyword_iff in Q. contradiction.
    + apply good_name_iff. exact G.
Qed.

Lemma raw_words a : quoted "`" true a = Some (a, []) <-> exists t, a = t ++ str "`" /\ ~ In "`"%char t.
Proof.
  split.
  - induction a as [|c a IH]; [discriminate|]. cbn [quoted negb andb]. destruct (ch c "`") eqn:E.
    + apply ch_eq in E. intros H. inversion H; subst. exists []. auto.
    + destruct (quoted "`" true a) as [[x y]|]; [|discriminate]. intros H. inversion H; subst. destruct (IH eq_refl) as (t & E1 & N). exists (c :: t). rewrite E1. split; [reflexivity|].
      intros [->|I]; [rewrite (proj2 (ch_eq "`"%char "`"%char) eq_refl) in E; discriminate|contradiction].
  - intros (t & -> & N). induction t as [|c t IH]; [reflexivity|]. cbn [app quoted negb andb]. destruct (ch c "`") eqn:E; [apply ch_eq in E; subst; elim N; left; reflexivity|].
    rewrite IH; [reflexivity|]. intros I. apply N. right. exact I.
Qed.
Lemma filter_short {A} (p : A -> bool) l : List.length (filter p l) <= List.length l.
Proof. induction l as [|x l IH]; cbn; [lia|]. destruct (p x); cbn; lia. Qed.
Lemma no_cr_iff a : no_cr a = a <-> ~ In cr a.
Proof.
  induction a as [|c a IH]; [cbn; tauto|]. unfold no_cr in *. cbn [filter]. destruct (ch c cr) eqn:E; cbn [negb].
  - apply ch_eq in E. subst. split; [|intros N; elim N; left; reflexivity]. intros H. exfalso.
    pose proof (f_equal (@List.length _) H) as L. cbn in L. pose proof (filter_short (fun x => negb (ch x cr)) a). lia.
  - split.
    + intros H. injection H as H. intros [->|I]; [rewrite (proj2 (ch_eq cr cr) eq_refl) in E; discriminate|]. apply IH in H. contradiction.
    + intros N. f_equal. apply IH. intros I. apply N. right. exact I.
Qed.

(** ** Digits and underscores *)
Definition isd (hex : bool) (c : ascii) : bool := is_digit c || (hex && is_hex c).
Definition segok (hex : bool) (d : sepstate) (s : text) : Prop := exists st, sep_run hex d s = Some st /\ st <> SepUnderscore.
Lemma run_app hex a b : forall d, sep_run hex d (a ++ b) = match sep_run hex d a with Some d' => sep_run hex d' b | None => None end.
Proof. induction a as [|c a IH]; intros d; [reflexivity|]. cbn [app sep_run]. destruct (sep_step hex d c); [apply IH|reflexivity]. Qed.
Lemma segok_cut hex d a c b : ch c "_" = false -> isd hex c = false -> segok hex d (a ++ c :: b) <-> segok hex d a /\ segok hex SepNone b.
Proof.
  intros U D. unfold segok. rewrite run_app. cbn [sep_run]. unfold sep_step, isd in *. rewrite U, D. split.
  - intros (st & E & N). destruct (sep_run hex d a) as [[| |]|]; try discriminate; (split; [eexists; split; [reflexivity|discriminate]|eauto]).
  - intros [(s1 & -> & N1) (s2 & E2 & N2)]. destruct s1; [eauto|eauto|congruence].
Qed.
Lemma segok_nil hex d : d <> SepUnderscore -> segok hex d []. Proof. intros H. exists d. auto. Qed.

Section Seg.
  Variables (hex : bool) (Q : ascii -> Prop).
  Hypothesis HQ : forall c, Q c -> isd hex c = true /\ ch c "_" = false.
  Definition seg (t : text) : Prop := Forall (fun c => Q c \/ c = "_"%char) t.
  Lemma step_q d c : Q c -> sep_step hex d c = Some SepDigit.
  Proof. intros H. destruct (HQ c H) as [A B]. unfold sep_step, isd in *. rewrite A, B. reflexivity. Qed.
  Lemma step_u d : sep_step hex d "_" = match d with SepDigit => Some SepUnderscore | _ => None end.
  Proof. reflexivity. Qed.
  Lemma digits_run t : digits Q t -> forall d, sep_run hex d t = Some SepDigit.
  Proof.
    induction 1 as [c H|c t H _ IH|c t H _ IH]; intros d; cbn [sep_run]; rewrite (step_q d c H); [reflexivity|apply IH|]. rewrite step_u. apply IH.
  Qed.
  Lemma later_run t : later_digits Q t -> sep_run hex SepDigit t = Some SepDigit.
  Proof. intros [t' H|t' H]; [apply digits_run; exact H|]. cbn [sep_run]. rewrite step_u. apply digits_run. exact H. Qed.
  Lemma run_inv t : seg t -> 
    (segok hex SepNone t -> t = [] \/ digits Q t) /\ (segok hex SepDigit t -> t = [] \/ later_digits Q t) /\ (segok hex SepUnderscore t -> digits Q t).
  Proof.
    assert (X : seg t -> (segok hex SepDigit t -> t = [] \/ later_digits Q t) /\ (segok hex SepUnderscore t -> digits Q t)).
    { induction 1 as [|c t [H| ->] F [IHd IHu]].
      - split; [auto|]. intros (st & E & N). cbn in E. congruence.
      - assert (D : forall d, segok hex d (c :: t) -> digits Q (c :: t)).
        { intros d (st & E & N). cbn [sep_run] in E. rewrite (step_q d c H) in E. destruct (IHd (ex_intro _ st (conj E N))) as [->|[t' L|t' L]]; [apply dg_one|apply dg_more|apply dg_sep]; assumption. }
        split; [intros S; right; left; exact (D _ S)|exact (D _)].
      - split; intros (st & E & N); cbn [sep_run] in E; rewrite step_u in E; [|discriminate]. right. right. apply IHu. exists st. auto. }
    intros S. split; [|exact (X S)]. intros O. destruct S as [|c t [H| ->] F]; [auto|right|].
    - destruct O as (st & E & N). cbn [sep_run] in E. rewrite (step_q _ c H) in E. destruct (proj1 (X (Forall_cons c (or_introl H) F)) ltac:(exists st; cbn [sep_run]; rewrite (step_q _ c H); auto)) as [Y|Y]; [discriminate|].
      inversion Y as [t' L|t' L Z]; [exact L|]. subst c. destruct (HQ _ H) as [_ B]. discriminate.
    - destruct O as (st & E & N). cbn [sep_run] in E. rewrite step_u in E. discriminate.
  Qed.
  Lemma seg_none t : seg t -> segok hex SepNone t <-> optional (digits Q) t.
  Proof. intros S. split; [exact (proj1 (run_inv t S))|]. intros [->|H]; [apply segok_nil; discriminate|]. exists SepDigit. split; [apply digits_run; exact H|discriminate]. Qed.
  Lemma seg_digit t : seg t -> segok hex SepDigit t <-> optional (later_digits Q) t.
  Proof. intros S. split; [exact (proj1 (proj2 (run_inv t S)))|]. intros [->|H]; [apply segok_nil; discriminate|]. exists SepDigit. split; [apply later_run; exact H|discriminate]. Qed.
  Lemma digits_seg t : digits Q t -> seg t.
  Proof. unfold seg. induction 1; repeat (apply Forall_cons; [auto; fail|]); auto. Qed.
  Lemma later_seg t : later_digits Q t -> seg t.
  Proof. intros [t' H|t' H]; [exact (digits_seg _ H)|]. constructor; [auto|exact (digits_seg _ H)]. Qed.
  Lemma digits_has t : digits Q t -> has_digit t = true.
  Proof. unfold has_digit. intros [c H|c t' H _|c t' H _]; cbn [existsb]; rewrite (proj2 (HQ c H)); reflexivity. Qed.
  Lemma later_has t : later_digits Q t -> has_digit t = true.
  Proof. intros [t' H|t' H]; [exact (digits_has _ H)|exact (digits_has _ H)]. Qed.
  Lemma digits_first t : digits Q t -> exists c u, t = c :: u /\ Q c /\ optional (later_digits Q) u.
  Proof. intros [c H|c t' H L|c t' H L]; eexists _, _; (split; [reflexivity|]); (split; [exact H|]); unfold optional; [auto|right; left; exact L|right; right; exact L]. Qed.
End Seg.
Lemma digits_cons (Q : ascii -> Prop) c t : Q c -> optional (later_digits Q) t -> digits Q (c :: t).
Proof. intros H [->|[t' L|t' L]]; [apply dg_one|apply dg_more|apply dg_sep]; assumption. Qed.
Lemma digits_weaken (P Q : ascii -> Prop) t : digits P t -> Forall (fun c => P c -> Q c) t -> digits Q t.
Proof.
  induction 1 as [c H|c t H _ IH|c t H _ IH]; intros F; inversion F as [|? ? X F']; subst; [apply dg_one; auto|apply dg_more; auto|]. inversion F'; subst. apply dg_sep; auto.
Qed.
Lemma later_weaken (P Q : ascii -> Prop) t : later_digits P t -> Forall (fun c => P c -> Q c) t -> later_digits Q t.
Proof. intros [t' H|t' H] F; [left; exact (digits_weaken _ _ _ H F)|right; apply Forall_inv_tail in F; exact (digits_weaken _ _ _ H F)]. Qed.

(** ** Numbers *)
Definition hexes (x : radix) : bool := match x with Hexadecimal => true | _ => false end.
Definition digit_class_of (x : radix) : ascii -> Prop := match x with Hexadecimal => hex_digit | _ => decimal_digit end.
Lemma dec_q hex c : decimal_digit c -> isd hex c = true /\ ch c "_" = false.
Proof. intros H. apply digit_iff in H. unfold isd. rewrite H. split; [reflexivity|]. destruct (ch c "_") eqn:E; [apply ch_eq in E; subst; discriminate|reflexivity]. Qed.
Lemma hex_q c : hex_digit c -> isd true c = true /\ ch c "_" = false.
Proof. intros H. apply hex_iff in H. unfold isd. rewrite H. split; [apply orb_true_r|]. destruct (ch c "_") eqn:E; [apply ch_eq in E; subst; discriminate|reflexivity]. Qed.
Lemma class_q x c : digit_class_of x c -> isd (hexes x) c = true /\ ch c "_" = false.
Proof. destruct x; cbn [digit_class_of hexes]; auto using dec_q, hex_q. Qed.
Lemma all_in_seg x t : all_in x t <-> seg (digit_class_of x) t.
Proof.
  unfold all_in, seg. split; apply Forall_impl; intros c; unfold in_digits, digit_class_of; rewrite orb_true_iff, ch_eq; destruct x; rewrite ?digit_iff, ?hex_iff; auto.
Qed.
Lemma ed_seg t : all_in Decimal t <-> seg decimal_digit t. Proof. exact (all_in_seg Decimal t). Qed.

Definition start (pre : text) : sepstate := if is_nil pre then SepNone else SepDigit.
Lemma start_ok pre : start pre <> SepUnderscore. Proof. destruct pre; discriminate. Qed.
Lemma sep_iff x pre d1 fr es ed im : shaped x pre d1 fr es ed im -> (hexes x = true -> match es with e :: _ => ch e "e" || ch e "E" = false | [] => True end) ->
  sep_ok x pre (d1 ++ fr ++ es ++ ed ++ im) = true <-> segok (hexes x) (start pre) d1 /\ segok (hexes x) SepNone (tl fr) /\ segok (hexes x) SepNone ed.
Proof.
  intros [_ _ F E I] Hx. assert (S : sep_ok x pre (d1 ++ fr ++ es ++ ed ++ im) = true <-> segok (hexes x) (start pre) (d1 ++ fr ++ es ++ ed ++ im)).
  { unfold sep_ok, segok. fold (hexes x). fold (start pre). destruct (sep_run (hexes x) (start pre) _) as [[| |]|]; split; try discriminate; try (intros (st & X & N); congruence); intros _; eexists; (split; [reflexivity|discriminate]). }
  rewrite S. clear S.
  assert (Im : forall d a, segok (hexes x) d (a ++ im) <-> segok (hexes x) d a).
  { intros d a. destruct I as [->| ->]; [rewrite app_nil_r; tauto|]. rewrite (segok_cut (hexes x) d a "i" []); [|reflexivity|destruct x; reflexivity]. pose proof (segok_nil (hexes x) SepNone ltac:(discriminate)). tauto. }
  assert (Ex : forall d a, segok (hexes x) d (a ++ es ++ ed ++ im) <-> segok (hexes x) d a /\ segok (hexes x) SepNone ed).
  { intros d a. destruct E as [[-> ->]|(e & g & -> & L & G & _)].
    - cbn [app]. rewrite Im. pose proof (segok_nil (hexes x) SepNone ltac:(discriminate)). tauto.
    - cbn [app]. rewrite segok_cut.
      + assert (X : segok (hexes x) SepNone (g ++ ed ++ im) <-> segok (hexes x) SepNone ed); [|rewrite X; tauto].
        destruct G as [->|[->| ->]]; [apply Im|..]; cbn [app].
        * rewrite (segok_cut (hexes x) SepNone [] "+" (ed ++ im)); [|reflexivity|destruct x; reflexivity]. rewrite Im. pose proof (segok_nil (hexes x) SepNone ltac:(discriminate)). tauto.
        * rewrite (segok_cut (hexes x) SepNone [] "-" (ed ++ im)); [|reflexivity|destruct x; reflexivity]. rewrite Im. pose proof (segok_nil (hexes x) SepNone ltac:(discriminate)). tauto.
      + unfold exp_letter in L. destruct (ch e "_") eqn:X; [apply ch_eq in X; subst; discriminate|reflexivity].
      + specialize (fun X => Hx X). unfold isd. pose proof (decimal_letter e L) as D. unfold in_digits in D. apply orb_false_iff in D. destruct D as [D _]. rewrite D. destruct (hexes x) eqn:Hh; [|reflexivity].
        pose proof (hex_letter e L (Hx eq_refl)) as H. unfold in_digits in H. apply orb_false_iff in H. destruct H as [H _]. cbn. exact H. }
  destruct F as [->|(f & -> & F)].
  - cbn [app tl]. rewrite Ex. pose proof (segok_nil (hexes x) SepNone ltac:(discriminate)). tauto.
  - cbn [app tl]. rewrite segok_cut; [|reflexivity|destruct x; reflexivity]. rewrite Ex. tauto.
Qed.

(** The conditions on a number. *)
Record numeric (x : radix) (pre d1 fr es ed im : text) : Prop := {
  nu_shaped : shaped x pre d1 fr es ed im;
  nu_point : fr = [] \/ x <> Octal /\ x <> Binary;
  nu_digits : has_digit d1 = true \/ has_digit (tl fr) = true;
  nu_exp : match es with e :: _ => (ch e "e" || ch e "E" = true /\ (x = Decimal \/ x = Legacy) \/ ch e "e" || ch e "E" = false /\ x = Hexadecimal) /\ digits decimal_digit ed | [] => fr = [] \/ x <> Hexadecimal end;
  nu_int : number_kind fr es im = LInt -> Forall (fun c => digit_of x c = true \/ c = "_"%char) d1;
  nu_whole : optional (if is_nil pre then digits (digit_class_of x) else later_digits (digit_class_of x)) d1;
  nu_fraction : optional (digits (digit_class_of x)) (tl fr) }.
Lemma shaped_f x pre d1 fr es ed im : shaped x pre d1 fr es ed im -> all_in x (tl fr).
Proof. intros [_ _ F _ _]. destruct F as [->|(f & -> & F)]; [constructor|exact F]. Qed.
Lemma numeric_iff x pre d1 fr es ed im : numeric x pre d1 fr es ed im <-> shaped x pre d1 fr es ed im /\ number_valid x pre d1 fr es ed im = true.
Proof.
  split.
  - intros [Sh P D E K W F]. split; [exact Sh|]. unfold number_valid. rewrite !andb_true_iff. split; [split; [split; [split|]|]|].
    + destruct P as [->|[P1 P2]]; [reflexivity|]. apply orb_true_iff. right. destruct x; congruence.
    + apply orb_true_iff. exact D.
    + destruct es as [|e g].
      * apply orb_true_iff. destruct E as [->|E]; [left; reflexivity|right; destruct x; congruence].
      * destruct E as [E Ed]. apply andb_true_iff. split; [|exact (digits_has false decimal_digit (dec_q false) ed Ed)]. destruct E as [[-> [->| ->]]|[-> ->]]; reflexivity.
    + destruct (number_kind fr es im); try reflexivity. apply forallb_forall. specialize (K eq_refl). rewrite Forall_forall in K. intros c I. apply orb_true_iff. rewrite ch_eq. exact (K c I).
    + apply sep_iff; [exact Sh|intros Hh; destruct es as [|e g]; [exact I|]; destruct E as [[[_ [->| ->]]|[E _]] _]; [discriminate..|exact E]|]. split; [|split].
      * destruct pre as [|p pre]; cbn [is_nil] in W; unfold start; cbn [is_nil]; [apply (seg_none _ _ (class_q x)); [apply all_in_seg, Sh|exact W]|apply (seg_digit _ _ (class_q x)); [apply all_in_seg, Sh|exact W]].
      * apply (seg_none _ _ (class_q x)); [apply all_in_seg; exact (shaped_f _ _ _ _ _ _ _ Sh)|exact F].
      * destruct Sh as [_ _ _ [[-> ->]|(e & g & -> & _ & _ & A)] _]; [apply segok_nil; discriminate|]. destruct E as [_ E]. apply (seg_none _ _ (dec_q (hexes x))); [apply ed_seg; exact A|right; exact E].
  - intros [Sh V]. destruct (valid_parts _ _ _ _ _ _ _ V) as (P & D & E & K & S). apply sep_iff in S; [|exact Sh|intros Hh; destruct es as [|e g]; [exact I|]; destruct E as [[[_ [->| ->]]|[E _]] _]; [discriminate..|exact E]].
    destruct S as (S1 & S2 & S3). constructor; auto.
    + destruct es as [|e g]; [exact E|]. destruct E as [E Hd]. split; [exact E|]. destruct Sh as [_ _ _ [[X _]|(e' & g' & _ & _ & _ & A)] _]; [discriminate|].
      apply (seg_none _ _ (dec_q (hexes x))) in S3; [|apply ed_seg; exact A]. destruct S3 as [->|S3]; [discriminate|exact S3].
    + destruct pre as [|p pre]; cbn [is_nil]; unfold start in S1; cbn [is_nil] in S1; [apply (seg_none _ _ (class_q x)) in S1; [exact S1|apply all_in_seg, Sh]|apply (seg_digit _ _ (class_q x)) in S1; [exact S1|apply all_in_seg, Sh]].
    + apply (seg_none _ _ (class_q x)) in S2; [exact S2|apply all_in_seg; exact (shaped_f _ _ _ _ _ _ _ Sh)].
Qed.
Lemma numeric_lex k v : lex_number v = Some (k, v, []) <-> exists x pre d1 fr es ed im, numeric x pre d1 fr es ed im /\ v = number_text pre d1 fr es ed im /\ k = number_kind fr es im.
Proof.
  split.
  - intros H. apply number_shaped in H. destruct H as (_ & x & pre & d1 & fr & es & ed & im & Sh & V & E & K). exists x, pre, d1, fr, es, ed, im. split; [apply numeric_iff; auto|auto].
  - intros (x & pre & d1 & fr & es & ed & im & N & -> & ->). apply numeric_iff in N. destruct N as [Sh V]. rewrite <- (app_nil_r (number_text pre d1 fr es ed im)) at 1. apply (again x); [exact Sh|exact V|apply num_end_nil].
Qed.
Lemma numeric_head x pre d1 fr es ed im : numeric x pre d1 fr es ed im -> exists c t, number_text pre d1 fr es ed im = c :: t /\ (is_digit c || (ch c "." && match t with d :: _ => is_digit d | [] => false end)) = true.
Proof.
  intros [Sh _ D _ _ W F]. unfold number_text. destruct Sh as [P _ Fr _ _].
  assert (Zero : exists c, pre = ["0"%char; c] -> exists c t, pre ++ d1 ++ fr ++ es ++ ed ++ im = c :: t /\ (is_digit c || (ch c "." && match t with d :: _ => is_digit d | [] => false end)) = true).
  { exists "0"%char. intros ->. eexists _, _. split; reflexivity. }
  assert (Dec : pre = [] -> digit_class_of x = decimal_digit -> exists c t, pre ++ d1 ++ fr ++ es ++ ed ++ im = c :: t /\ (is_digit c || (ch c "." && match t with d :: _ => is_digit d | [] => false end)) = true).
  { intros -> Ex. rewrite Ex in *. cbn [is_nil app] in *. destruct W as [->|W].
    - destruct D as [D|D]; [discriminate|]. destruct Fr as [->|(f & -> & _)]; [discriminate|]. cbn [tl] in *. destruct F as [->|F]; [discriminate|]. apply digits_first in F. destruct F as (c & u & -> & Hc & _).
      eexists _, _. split; [reflexivity|]. cbn [app]. apply digit_iff in Hc. rewrite Hc. reflexivity.
    - apply digits_first in W. destruct W as (c & u & -> & Hc & _). eexists _, _. split; [reflexivity|]. apply digit_iff in Hc. rewrite Hc. reflexivity. }
  unfold prefixed in P. destruct x; cbn [digit_class_of] in *.
  1,2: apply Dec; [apply P|reflexivity].
  all: destruct P as (c & -> & _); eexists _, _; (split; [reflexivity|reflexivity]).
Qed.
Lemma num_numeric k v : num_chars k v <-> exists x pre d1 fr es ed im, numeric x pre d1 fr es ed im /\ v = number_text pre d1 fr es ed im /\ k = number_kind fr es im.
Proof.
  unfold num_chars. rewrite numeric_lex. split; [tauto|]. intros (x & pre & d1 & fr & es & ed & im & N & -> & ->). split; [exists x, pre, d1, fr, es, ed, im; auto|exact (numeric_head _ _ _ _ _ _ _ N)].
Qed.

Lemma letters_of e a b : ch e a || ch e b = true <-> one_of [a; b] e.
Proof. rewrite orb_true_iff, !ch_eq. unfold one_of. cbn [In]. intuition congruence. Qed.
Lemma exponent_form x pre d1 fr es ed im : numeric x pre d1 fr es ed im -> es <> [] ->
  go_exponent (if hexes x then str "pP" else str "eE") (es ++ ed) /\ x <> Octal /\ x <> Binary.
Proof.
  intros [Sh _ _ E _ _ _] N. destruct Sh as [_ _ _ [[-> _]|(e & g & -> & L & G & _)] _]; [congruence|]. destruct E as [E Ed]. cbn [app].
  assert (Gs : In g [[]; str "+"; str "-"]) by (cbn; destruct G as [->|[->| ->]]; auto).
  destruct E as [[E [->| ->]]|[E ->]]; cbn [hexes]; (split; [|split; discriminate]); apply ge_exponent; auto.
  - apply letters_of. exact E.
  - apply letters_of. exact E.
  - unfold exp_letter in L. rewrite <- orb_assoc, orb_true_iff in L. destruct L as [L|L]; [congruence|apply letters_of; exact L].
Qed.
Lemma one_to_nine c : decimal_digit c -> c <> "0"%char -> from_to 49 57 c.
Proof.
  intros D N. unfold decimal_digit, from_to in *. assert (nat_of_ascii c <> 48); [|lia]. intros Z. apply N. rewrite <- (ascii_nat_embedding c), Z. reflexivity.
Qed.
Lemma bin_iff c : ch c "0" || ch c "1" = true <-> binary_digit c.
Proof. unfold binary_digit, from_to. destruct c as [[] [] [] [] [] [] [] []]; cbv; split; intros H; try discriminate; try reflexivity; try (split; lia); exfalso; lia. Qed.
Lemma under_not (P : ascii -> Prop) (p : ascii -> bool) c : (p c = true <-> P c) -> p "_"%char = false -> p c = true \/ c = "_"%char -> decimal_digit c -> P c.
Proof. intros E U [H| ->] D; [apply E; exact H|]. exfalso. unfold decimal_digit, from_to in D. cbv in D. lia. Qed.

(** What a number is, without its suffix. *)
Lemma numeric_body x pre d1 fr es ed im : numeric x pre d1 fr es ed im ->
  (number_kind fr es im = LInt -> go_integer (pre ++ d1 ++ fr ++ es ++ ed)) /\
  (number_kind fr es im = LFloat -> go_float (pre ++ d1 ++ fr ++ es ++ ed)) /\
  (number_kind fr es im = LImag -> go_imaginary ((pre ++ d1 ++ fr ++ es ++ ed) ++ str "i")).
Proof.
  intros N. pose proof N as [Sh P D E K W F]. pose proof (exponent_form _ _ _ _ _ _ _ N) as Xp.
  assert (Int : fr = [] -> es = [] -> (number_kind fr es im = LInt \/ x = Hexadecimal) -> go_integer (pre ++ d1)).
  { intros -> -> Hk. cbn [tl] in *. destruct D as [D|D]; [|discriminate].
    assert (K' : x <> Hexadecimal -> Forall (fun c => digit_of x c = true \/ c = "_"%char) d1) by (intros Nx; destruct Hk as [Hk|Hk]; [auto|contradiction]). clear K.
    assert (Wd : pre = [] -> digits (digit_class_of x) d1) by (intros ->; destruct W as [->|W]; [discriminate|exact W]).
    assert (Wl : pre <> [] -> later_digits (digit_class_of x) d1) by (intros Np; destruct pre; [congruence|]; destruct W as [->|W]; [discriminate|exact W]).
    destruct Sh as [Pr _ _ _ _]. destruct x; cbn [prefixed digit_class_of digit_of] in *.
    - destruct Pr as [-> Pz]. cbn [app]. specialize (Wd eq_refl). apply digits_first in Wd. destruct Wd as (c & u & -> & Hc & Hu). apply gi_decimal; [|exact Hu]. apply one_to_nine; [exact Hc|]. intros ->. exact (Pz u eq_refl).
    - destruct Pr as [-> [u ->]]. cbn [app]. specialize (Wd eq_refl). apply digits_first in Wd. destruct Wd as (c & u' & Eq & Hc & Hu). injection Eq as <- <-. destruct Hu as [->|Hu]; [constructor|]. apply gi_octal. apply (later_weaken decimal_digit); [exact Hu|].
      specialize (K' ltac:(discriminate)). inversion K' as [|? ? _ K2]; subst. revert K2. apply Forall_impl. intros a. apply under_not; [apply oct_iff|reflexivity].
    - destruct Pr as (c & -> & Lc). cbn [app]. apply gi_hex; [apply letters_of; exact Lc|]. apply Wl. discriminate.
    - destruct Pr as (c & -> & Lc). cbn [app]. apply gi_prefix_octal; [apply letters_of; exact Lc|]. apply (later_weaken decimal_digit); [apply Wl; discriminate|].
      specialize (K' ltac:(discriminate)). revert K'. apply Forall_impl. intros a. apply under_not; [apply oct_iff|reflexivity].
    - destruct Pr as (c & -> & Lc). cbn [app]. apply gi_binary; [apply letters_of; exact Lc|]. apply (later_weaken decimal_digit); [apply Wl; discriminate|].
      specialize (K' ltac:(discriminate)). revert K'. apply Forall_impl. intros a. apply (under_not binary_digit (fun a => ch a "0" || ch a "1")); [apply bin_iff|reflexivity]. }
  assert (Flo : fr <> [] \/ es <> [] -> go_float (pre ++ d1 ++ fr ++ es ++ ed)).
  { intros Nf. assert (Nx : x <> Octal /\ x <> Binary) by (destruct Nf as [Nf|Nf]; [destruct P as [P|P]; [contradiction|exact P]|exact (proj2 (Xp Nf))]). destruct Nx as [Nx1 Nx2].
    assert (Ne : es = [] -> ed = []) by (intros ->; destruct Sh as [_ _ _ [[_ ->]|(e & g & X & _)] _]; [reflexivity|discriminate]).
    assert (Dn : d1 <> [] \/ tl fr <> []) by (destruct D as [D|D]; [left|right]; intros X; rewrite X in D; discriminate).
    assert (De : hexes x = false -> optional (go_exponent (str "eE")) (es ++ ed)).
    { intros Hh. destruct es as [|e g]; [left; rewrite (Ne eq_refl); reflexivity|right]. destruct (Xp ltac:(discriminate)) as [X _]. rewrite Hh in X. exact X. }
    destruct (hexes x) eqn:Hh.
    - destruct x; try discriminate. destruct Sh as [(c & -> & Lc) _ Fr _ _]. cbn [app is_nil digit_class_of] in *. apply letters_of in Lc.
      assert (Nes : es <> []). { intros ->. destruct E as [E|E]; [|congruence]. destruct Nf; congruence. } specialize (Xp Nes). destruct Xp as [Xp _].
      destruct Fr as [->|(f & -> & _)].
      + cbn [tl app] in *. destruct Dn as [Dn|Dn]; [|congruence]. destruct W as [W|W]; [contradiction|]. apply gf_hex; assumption.
      + cbn [tl] in *. change (("."%char :: f) ++ es ++ ed) with (str "." ++ f ++ es ++ ed). apply gf_hex_point; assumption.
    - assert (pre = []) as -> by (destruct Sh as [Pr _ _ _ _]; destruct x; try congruence; try discriminate; apply Pr).
      assert (Ec : digit_class_of x = decimal_digit) by (destruct x; try reflexivity; discriminate). rewrite Ec in *. cbn [app is_nil] in *. specialize (De eq_refl).
      destruct Sh as [_ _ Fr _ _]. destruct Fr as [->|(f & -> & _)].
      + cbn [tl app] in *. destruct Dn as [Dn|Dn]; [|congruence]. destruct W as [W|W]; [contradiction|]. apply gf_exponent; [exact W|]. destruct Nf as [Nf|Nf]; [congruence|]. exact (proj1 (Xp Nf)).
      + cbn [tl] in *. change (("."%char :: f) ++ es ++ ed) with (str "." ++ f ++ es ++ ed). apply gf_point; assumption. }
  assert (Ne : es = [] -> ed = []) by (intros ->; destruct Sh as [_ _ _ [[_ ->]|(e & g & X & _)] _]; [reflexivity|discriminate]).
  assert (C : fr = [] /\ es = [] \/ fr <> [] \/ es <> []) by (destruct fr; [destruct es; [auto|right; right; discriminate]|right; left; discriminate]).
  split; [|split].
  - intros Hk. destruct C as [[-> ->]|C].
    + rewrite (Ne eq_refl). cbn [app]. rewrite app_nil_r. apply Int; auto.
    + exfalso. unfold number_kind in Hk. destruct (negb (is_nil im)); [discriminate|]. destruct fr; [destruct es; [destruct C; congruence|discriminate]|discriminate].
  - intros Hk. destruct C as [[-> ->]|C]; [|exact (Flo C)]. exfalso. unfold number_kind in Hk. destruct (negb (is_nil im)); discriminate.
  - intros Hk. destruct C as [[-> ->]|C]; [|apply gm_float; exact (Flo C)]. rewrite (Ne eq_refl). cbn [app]. rewrite app_nil_r. cbn [tl] in *. destruct D as [D|D]; [|discriminate].
    destruct Sh as [Pr _ _ _ _]. destruct x; cbn [prefixed digit_class_of] in *.
    + destruct Pr as [-> _]. destruct W as [->|W]; [discriminate|]. apply gm_digits. exact W.
    + destruct Pr as [-> _]. destruct W as [->|W]; [discriminate|]. apply gm_digits. exact W.
    + apply gm_integer, Int; auto.
    + destruct Pr as (c & -> & Lc). destruct W as [->|W]; [discriminate|]. cbn [app]. apply gm_lenient; [apply letters_of in Lc; destruct Lc as [<-|[<-|[]]]; unfold one_of; cbn; auto|exact W].
    + destruct Pr as (c & -> & Lc). destruct W as [->|W]; [discriminate|]. cbn [app]. apply gm_lenient; [apply letters_of in Lc; destruct Lc as [<-|[<-|[]]]; unfold one_of; cbn; auto|exact W].
Qed.
(** Numbers from their description. *)
Lemma dec_radix d1 : exists x, (x = Decimal \/ x = Legacy) /\ prefixed x [] d1.
Proof.
  destruct d1 as [|c t]; [exists Decimal; split; [auto|split; [reflexivity|discriminate]]|]. destruct (ascii_dec c "0") as [->|N]; [exists Legacy; split; [auto|split; [reflexivity|eauto]]|].
  exists Decimal. split; [auto|]. split; [reflexivity|]. intros t' E. congruence.
Qed.
Lemma opt_seg Q t : optional (digits Q) t -> seg Q t.
Proof. intros [->|H]; [constructor|exact (digits_seg Q t H)]. Qed.
Lemma opt_later_seg Q t : optional (later_digits Q) t -> seg Q t.
Proof. intros [->|H]; [constructor|exact (later_seg Q t H)]. Qed.
Lemma with_i x pre d1 fr es ed : numeric x pre d1 fr es ed [] -> numeric x pre d1 fr es ed ["i"%char].
Proof. intros [[A B C D _] P Dg E K W F]. constructor; auto; [constructor; auto|]. discriminate. Qed.
Lemma exponent_parts letters t : go_exponent letters t -> exists e g ed, t = (e :: g) ++ ed /\ one_of letters e /\ sign g /\ digits decimal_digit ed.
Proof. intros [e g d L G D]. exists e, g, d. split; [reflexivity|]. split; [exact L|]. split; [|exact D]. cbn in G. unfold sign. destruct G as [<-|[<-|[<-|[]]]]; auto. Qed.
Lemma e_letter e : one_of (str "eE") e -> exp_letter e = true /\ ch e "e" || ch e "E" = true.
Proof. intros [<-|[<-|[]]]; split; reflexivity. Qed.
Lemma p_letter e : one_of (str "pP") e -> exp_letter e = true /\ ch e "e" || ch e "E" = false.
Proof. intros [<-|[<-|[]]]; split; reflexivity. Qed.

Lemma dec_numeric d1 fr es ed im : optional (digits decimal_digit) d1 -> (fr = [] \/ exists f, fr = "."%char :: f /\ optional (digits decimal_digit) f) ->
  d1 <> [] \/ tl fr <> [] -> (es = [] /\ ed = [] \/ exists e g, es = e :: g /\ one_of (str "eE") e /\ sign g /\ digits decimal_digit ed) ->
  (im = [] \/ im = ["i"%char]) -> number_kind fr es im <> LInt -> exists x, numeric x [] d1 fr es ed im.
Proof.
  intros W F Ne E I K. destruct (dec_radix d1) as (x & Hx & P). exists x.
  assert (Ec : digit_class_of x = decimal_digit) by (destruct Hx as [->| ->]; reflexivity).
  assert (Fo : optional (digits decimal_digit) (tl fr)) by (destruct F as [->|(f & -> & F)]; [left; reflexivity|exact F]).
  constructor; rewrite ?Ec; auto.
  - constructor; auto.
    + apply all_in_seg. rewrite Ec. apply opt_seg. exact W.
    + destruct F as [->|(f & -> & F)]; [auto|]. right. exists f. split; [reflexivity|]. apply all_in_seg. rewrite Ec. apply opt_seg. exact F.
    + destruct E as [E|(e & g & -> & L & G & D)]; [auto|]. right. exists e, g. split; [reflexivity|]. split; [apply e_letter; exact L|]. split; [exact G|]. apply ed_seg, digits_seg. exact D.
  - right. destruct Hx as [->| ->]; split; discriminate.
  - destruct Ne as [N|N]; [left; destruct W as [W|W]; [contradiction|exact (digits_has false _ (dec_q false) _ W)]|right; destruct Fo as [W'|W']; [contradiction|exact (digits_has false _ (dec_q false) _ W')]].
  - destruct E as [[-> _]|(e & g & -> & L & _ & D)]; [right; destruct Hx as [->| ->]; discriminate|]. split; [left; split; [apply e_letter; exact L|exact Hx]|exact D].
  - intros X. contradiction.
Qed.
Lemma prefix_numeric x c d1 fr es ed im : prefixed x ["0"%char; c] d1 -> optional (later_digits (digit_class_of x)) d1 ->
  (fr = [] \/ x = Hexadecimal /\ es <> [] /\ exists f, fr = "."%char :: f /\ optional (digits hex_digit) f) -> d1 <> [] \/ tl fr <> [] ->
  (es = [] /\ ed = [] \/ x = Hexadecimal /\ exists e g, es = e :: g /\ one_of (str "pP") e /\ sign g /\ digits decimal_digit ed) ->
  (im = [] \/ im = ["i"%char]) -> (number_kind fr es im = LInt -> Forall (fun c => digit_of x c = true \/ c = "_"%char) d1) -> numeric x ["0"%char; c] d1 fr es ed im.
Proof.
  intros P W F Ne E I K.
  assert (Fo : optional (digits (digit_class_of x)) (tl fr)) by (destruct F as [->|(-> & _ & f & -> & F)]; [left; reflexivity|exact F]).
  constructor; auto.
  - constructor; auto.
    + apply all_in_seg. apply opt_later_seg. exact W.
    + destruct F as [->|(-> & _ & f & -> & F)]; [auto|]. right. exists f. split; [reflexivity|]. apply all_in_seg. apply opt_seg. exact F.
    + destruct E as [E|(_ & e & g & -> & L & G & D)]; [auto|]. right. exists e, g. split; [reflexivity|]. split; [apply p_letter; exact L|]. split; [exact G|]. apply ed_seg, digits_seg. exact D.
  - destruct F as [->|(-> & _)]; [auto|right; split; discriminate].
  - destruct Ne as [N|N]; [left; destruct W as [W|W]; [contradiction|exact (later_has (hexes x) _ (class_q x) _ W)]|right; destruct Fo as [W'|W']; [contradiction|exact (digits_has (hexes x) _ (class_q x) _ W')]].
  - destruct E as [[-> _]|(-> & e & g & -> & L & _ & D)].
    + destruct F as [F|(_ & F & _)]; [auto|congruence].
    + split; [right; split; [apply p_letter; exact L|reflexivity]|exact D].
Qed.
Lemma later_ne Q t : later_digits Q t -> t <> []. Proof. intros [t' H|t' H]; [destruct H|]; discriminate. Qed.
Lemma digits_ne Q t : digits Q t -> t <> []. Proof. intros H; destruct H; discriminate. Qed.
Lemma seg_class (P : ascii -> Prop) (p : ascii -> bool) t : (forall c, p c = true <-> P c) -> seg P t -> Forall (fun c => p c = true \/ c = "_"%char) t.
Proof. intros E. apply Forall_impl. intros c [H|H]; [left; apply E; exact H|auto]. Qed.
Lemma oct_dec c : octal_digit c -> decimal_digit c. Proof. unfold octal_digit, decimal_digit, from_to. lia. Qed.
Lemma bin_dec c : binary_digit c -> decimal_digit c. Proof. unfold binary_digit, decimal_digit, from_to. lia. Qed.
Lemma all_impl (P Q : ascii -> Prop) : (forall c, P c -> Q c) -> forall t, Forall (fun c => P c -> Q c) t.
Proof. intros H t. apply Forall_forall. auto. Qed.

Lemma int_numeric t : go_integer t -> exists x pre d1, numeric x pre d1 [] [] [] [] /\ t = pre ++ d1.
Proof.
  intros H. destruct H as [|c t C L|t L|c t C L|c t C L|c t C L].
  - exists Legacy, [], (str "0"). split; [|reflexivity]. apply numeric_iff. split; [|reflexivity]. constructor; auto; [split; [reflexivity|exists []; reflexivity]|repeat constructor].
  - assert (D : decimal_digit c) by (unfold decimal_digit, from_to in *; lia). pose proof (digits_cons _ _ _ D L) as Ds. exists Decimal, [], (c :: t). split; [|reflexivity]. constructor; auto.
    + constructor; auto; [split; [reflexivity|]; intros u E; injection E as -> _; unfold from_to in C; cbv in C; lia|]. apply all_in_seg. apply digits_seg. exact Ds.
    + left. exact (digits_has false _ (dec_q false) _ Ds).
    + intros _. apply (seg_class decimal_digit); [intros; apply digit_iff|apply digits_seg; exact Ds].
    + right. exact Ds.
    + left. reflexivity.
  - assert (D : decimal_digit "0") by (split; cbv; lia). assert (O : octal_digit "0") by (split; cbv; lia).
    pose proof (digits_cons _ _ _ O (or_intror L)) as Dt. pose proof (digits_weaken _ decimal_digit _ Dt (all_impl _ _ oct_dec _)) as Dd. exists Legacy, [], ("0"%char :: t). split; [|reflexivity]. constructor; auto.
    + constructor; auto; [split; [reflexivity|eauto]|]. apply all_in_seg. apply digits_seg. exact Dd.
    + intros _. apply (seg_class octal_digit); [intros; apply oct_iff|apply digits_seg; exact Dt].
    + right. exact Dd.
    + left. reflexivity.
  - exists Octal, ["0"%char; c], t. split; [|reflexivity]. apply prefix_numeric; auto.
    + exists c. split; [reflexivity|apply letters_of; exact C].
    + right. exact (later_weaken _ decimal_digit _ L (all_impl _ _ oct_dec _)).
    + left. exact (later_ne _ _ L).
    + intros _. apply (seg_class octal_digit); [intros; apply oct_iff|apply later_seg; exact L].
  - exists Binary, ["0"%char; c], t. split; [|reflexivity]. apply prefix_numeric; auto.
    + exists c. split; [reflexivity|apply letters_of; exact C].
    + right. exact (later_weaken _ decimal_digit _ L (all_impl _ _ bin_dec _)).
    + left. exact (later_ne _ _ L).
    + intros _. apply (seg_class binary_digit (fun c => ch c "0" || ch c "1")); [intros; apply bin_iff|apply later_seg; exact L].
  - exists Hexadecimal, ["0"%char; c], t. split; [|reflexivity]. apply prefix_numeric; auto.
    + exists c. split; [reflexivity|apply letters_of; exact C].
    + right. exact L.
    + left. exact (later_ne _ _ L).
    + intros _. apply (seg_class hex_digit); [intros; apply hex_iff|apply later_seg; exact L].
Qed.
Lemma float_numeric t : go_float t -> exists x pre d1 fr es ed, numeric x pre d1 fr es ed [] /\ (fr <> [] \/ es <> []) /\ t = pre ++ d1 ++ fr ++ es ++ ed.
Proof.
  intros H. destruct H as [whole fraction expo W F N X|whole expo W X|c whole fraction expo C W F N X|c whole expo C W X].
  - assert (E : exists es ed, expo = es ++ ed /\ (es = [] /\ ed = [] \/ exists e g, es = e :: g /\ one_of (str "eE") e /\ sign g /\ digits decimal_digit ed)).
    { destruct X as [->|X]; [exists [], []; auto|]. apply exponent_parts in X. destruct X as (e & g & ed & -> & L & G & D). exists (e :: g), ed. split; [reflexivity|]. right. exists e, g. auto. }
    destruct E as (es & ed & -> & E). destruct (dec_numeric whole (str "." ++ fraction) es ed []) as [x Nx]; auto.
    + right. exists fraction. auto.
    + discriminate.
    + exists x, [], whole, (str "." ++ fraction), es, ed. split; [exact Nx|]. split; [left; discriminate|reflexivity].
  - apply exponent_parts in X. destruct X as (e & g & ed & -> & L & G & D). destruct (dec_numeric whole [] (e :: g) ed []) as [x Nx]; auto.
    + right. exact W.
    + left. exact (digits_ne _ _ W).
    + right. exists e, g. auto.
    + discriminate.
    + exists x, [], whole, [], (e :: g), ed. split; [exact Nx|]. split; [right; discriminate|reflexivity].
  - apply exponent_parts in X. destruct X as (e & g & ed & -> & L & G & D). exists Hexadecimal, ["0"%char; c], whole, (str "." ++ fraction), (e :: g), ed. split; [|split; [left; discriminate|reflexivity]]. apply prefix_numeric; auto.
    + exists c. split; [reflexivity|apply letters_of; exact C].
    + right. split; [reflexivity|]. split; [discriminate|]. exists fraction. auto.
    + right. split; [reflexivity|]. exists e, g. auto.
    + discriminate.
  - apply exponent_parts in X. destruct X as (e & g & ed & -> & L & G & D). exists Hexadecimal, ["0"%char; c], whole, [], (e :: g), ed. split; [|split; [right; discriminate|reflexivity]]. apply prefix_numeric; auto.
    + exists c. split; [reflexivity|apply letters_of; exact C].
    + right. exact W.
    + left. exact (later_ne _ _ W).
    + right. split; [reflexivity|]. exists e, g. auto.
    + discriminate.
Qed.
Lemma imaginary_numeric t : go_imaginary t -> exists x pre d1 fr es ed, numeric x pre d1 fr es ed ["i"%char] /\ t = (pre ++ d1 ++ fr ++ es ++ ed) ++ str "i".
Proof.
  intros H. destruct H as [t D|t G|t G|c t C L].
  - destruct (dec_numeric t [] [] [] ["i"%char]) as [x Nx]; auto; [right; exact D|left; exact (digits_ne _ _ D)|discriminate|]. exists x, [], t, [], [], []. split; [exact Nx|]. cbn [app]. rewrite app_nil_r. reflexivity.
  - destruct (int_numeric t G) as (x & pre & d1 & N & ->). exists x, pre, d1, [], [], []. split; [apply with_i; exact N|]. cbn [app]. rewrite app_nil_r. reflexivity.
  - destruct (float_numeric t G) as (x & pre & d1 & fr & es & ed & N & _ & ->). exists x, pre, d1, fr, es, ed. split; [apply with_i; exact N|reflexivity].
  - assert (P : exists x, prefixed x ["0"%char; c] t /\ digit_class_of x = decimal_digit).
    { cbn in C. destruct C as [<-|[<-|[<-|[<-|[]]]]]; [exists Binary|exists Binary|exists Octal|exists Octal]; (split; [eexists; split; [reflexivity|reflexivity]|reflexivity]). }
    destruct P as (x & P & Ec). exists x, ["0"%char; c], t, [], [], []. split.
    + apply prefix_numeric; auto; [right; rewrite Ec; exact L|left; exact (later_ne _ _ L)|discriminate].
    + cbn [app]. rewrite app_nil_r. reflexivity.
Qed.
Lemma number_words k v : num_chars k v <-> k = LInt /\ go_integer v \/ k = LFloat /\ go_float v \/ k = LImag /\ go_imaginary v.
Proof.
  rewrite num_numeric. split.
  - intros (x & pre & d1 & fr & es & ed & im & N & -> & ->). destruct (numeric_body _ _ _ _ _ _ _ N) as (A & B & C). unfold number_text.
    assert (Im : im = [] \/ im = str "i") by (destruct N as [[_ _ _ _ Im] _ _ _ _ _ _]; exact Im).
    destruct Im as [->| ->].
    + rewrite app_nil_r. destruct (number_kind fr es []) eqn:K; try (unfold number_kind in K; cbn in K; destruct (is_nil fr && is_nil es); discriminate); auto.
    + right. right. split; [reflexivity|]. specialize (C eq_refl). rewrite <- !app_assoc in C. exact C.
  - intros [[-> H]|[[-> H]|[-> H]]].
    + destruct (int_numeric v H) as (x & pre & d1 & N & ->). exists x, pre, d1, [], [], [], []. split; [exact N|]. split; [unfold number_text; cbn [app]; rewrite app_nil_r; reflexivity|reflexivity].
    + destruct (float_numeric v H) as (x & pre & d1 & fr & es & ed & N & Ne & ->). exists x, pre, d1, fr, es, ed, []. split; [exact N|]. split; [unfold number_text; rewrite app_nil_r; reflexivity|].
      unfold number_kind. cbn [is_nil negb]. destruct fr; [destruct es; [destruct Ne; congruence|reflexivity]|reflexivity].
    + destruct (imaginary_numeric v H) as (x & pre & d1 & fr & es & ed & N & ->). exists x, pre, d1, fr, es, ed, ["i"%char]. split; [exact N|]. split; [unfold number_text; rewrite <- !app_assoc; reflexivity|reflexivity].
Qed.

(** ** Quoted texts *)
Lemma digit_val_hex c : (digit_val c <? 16)%N = true <-> hex_digit c.
Proof. rewrite <- hex_iff. destruct c as [[] [] [] [] [] [] [] []]; vm_compute; split; congruence. Qed.
Lemma digit_val_oct c : (digit_val c <? 8)%N = true <-> octal_digit c.
Proof. rewrite <- oct_iff. destruct c as [[] [] [] [] [] [] [] []]; vm_compute; split; congruence. Qed.
Lemma digit_numeral c : hex_digit c -> digit_val c = numeral c.
Proof. intros H. apply hex_iff in H. destruct c as [[] [] [] [] [] [] [] []]; vm_compute in H; try discriminate H; vm_compute; reflexivity. Qed.
Lemma oct_hex c : octal_digit c -> hex_digit c. Proof. unfold octal_digit, hex_digit, from_to. lia. Qed.
Section Digits.
  Variables (base : N) (P : ascii -> Prop).
  Hypothesis HP : forall c, (digit_val c <? base)%N = true <-> P c.
  Hypothesis HN : forall c, P c -> digit_val c = numeral c.
  Lemma escape_digits_iff n : forall a s x r, escape_digits n base a s = Some (x, r) <->
    exists t, s = t ++ r /\ List.length t = n /\ Forall P t /\ x = fold_left (fun n c => n * base + numeral c)%N t a.
  Proof.
    induction n as [|n IH]; intros a s x r; cbn [escape_digits].
    - split; [intros E; injection E as <- <-; exists []; auto|]. intros (t & -> & L & _ & ->). destruct t; [reflexivity|discriminate].
    - destruct s as [|c s]; [split; [discriminate|]; intros (t & E & L & _); destruct t; discriminate|]. destruct (digit_val c <? base)%N eqn:D.
      + apply HP in D. rewrite IH. split.
        * intros (t & -> & L & F & ->). exists (c :: t). split; [reflexivity|]. split; [cbn; congruence|]. split; [constructor; assumption|]. cbn [fold_left]. rewrite (HN c D). reflexivity.
        * intros (t & E & L & F & ->). destruct t as [|c' t]; [discriminate|]. cbn in E. injection E as <- ->. inversion F; subst. exists t. split; [reflexivity|]. split; [cbn in L; congruence|]. split; [assumption|]. cbn [fold_left]. rewrite (HN c D). reflexivity.
      + split; [discriminate|]. intros (t & E & L & F & _). destruct t as [|c' t]; [discriminate|]. cbn in E. injection E as <- _. inversion F; subst. assert ((digit_val c <? base)%N = true) by (apply HP; assumption). congruence.
  Qed.
  Lemma escape_code_iff n max s r : escape_code n base max s = Some r <->
    exists t, s = t ++ r /\ List.length t = n /\ Forall P t /\ (number_value base t <= max)%N /\ ~ (55296 <= number_value base t < 57344)%N.
  Proof.
    unfold escape_code, number_value. split.
    - destruct (escape_digits n base 0 s) as [[x r']|] eqn:E; [|discriminate]. destruct ((max <? x) || ((55296 <=? x) && (x <? 57344)))%N eqn:B; [discriminate|]. intros X. injection X as ->.
      apply escape_digits_iff in E. destruct E as (t & -> & L & F & ->). exists t. split; [reflexivity|]. split; [exact L|]. split; [exact F|]. apply orb_false_iff in B. destruct B as [B1 B2]. apply N.ltb_ge in B1. split; [exact B1|].
      apply andb_false_iff in B2. rewrite N.leb_gt, N.ltb_ge in B2. lia.
    - intros (t & -> & L & F & M & G). rewrite (proj2 (escape_digits_iff n 0 (t ++ r) (fold_left (fun n c => n * base + numeral c) t 0)%N r)); [|exists t; eauto].
      destruct (orb _ _) eqn:B; [|reflexivity]. exfalso. apply orb_true_iff in B. rewrite andb_true_iff, !N.ltb_lt, N.leb_le in B. lia.
  Qed.
End Digits.
Definition oct_code := escape_code_iff 8 octal_digit digit_val_oct (fun c H => digit_numeral c (oct_hex c H)).
Definition hex_code := escape_code_iff 16 hex_digit digit_val_hex digit_numeral.

Lemma value_bound t : Forall hex_digit t -> (number_value 16 t < 16 ^ N.of_nat (List.length t))%N.
Proof.
  unfold number_value. assert (X : forall t a, Forall hex_digit t -> (fold_left (fun n c => n * 16 + numeral c) t a < (a + 1) * 16 ^ N.of_nat (List.length t))%N).
  { clear. induction t as [|c t IH]; intros a F; [cbn; lia|]. inversion F as [|? ? Hc F']; subst. cbn [fold_left List.length]. eapply N.lt_le_trans; [apply IH; exact F'|]. rewrite Nat2N.inj_succ, N.pow_succ_r'.
    assert ((numeral c < 16)%N) by (rewrite <- (digit_numeral c Hc); apply N.ltb_lt, digit_val_hex; exact Hc).
    rewrite N.mul_assoc. apply N.mul_le_mono_r. lia. }
  intros F. specialize (X t 0%N F). rewrite N.add_0_l, N.mul_1_l in X. exact X.
Qed.
Lemma quote_case q : q = dquote \/ q = "'"%char -> is_oct q = false /\ ch "x" q = false /\ ch "u" q = false /\ ch "U" q = false /\ forall c, is_oct c = true -> ch c q = false.
Proof. intros [->| ->]; repeat split; intros c H; destruct c as [[] [] [] [] [] [] [] []]; vm_compute in H; try discriminate H; reflexivity. Qed.
Lemma simple_not_oct c : is_oct c = true -> existsb (ch c) (str "abfnrtv\") = false.
Proof. intros H. destruct c as [[] [] [] [] [] [] [] []]; vm_compute in H; try discriminate H; reflexivity. Qed.
Lemma simple_iff c l : existsb (ch c) l = true <-> one_of l c.
Proof. unfold one_of. rewrite existsb_exists. split; [intros (d & I & E); apply ch_eq in E; subst; exact I|]. intros I. exists c. split; [exact I|apply ch_eq; reflexivity]. Qed.

Lemma escape_iff q s r : q = dquote \/ q = "'"%char -> escape q s = Some r <-> exists e, s = e ++ r /\ go_escape q e.
Proof.
  intros Hq. destruct (quote_case q Hq) as (Qo & Qx & Qu & QU & Qq). split.
  - intros E. destruct s as [|c s]; [discriminate|]. cbn [escape] in E. destruct (existsb (ch c) (str "abfnrtv\") || ch c q) eqn:Sm.
    + injection E as <-. exists [c]. split; [reflexivity|]. constructor. apply orb_true_iff in Sm. rewrite simple_iff, ch_eq in Sm. exact Sm.
    + destruct (is_oct c) eqn:O.
      * apply oct_code in E. destruct E as (t & E & L & F & M & _). exists t. split; [exact E|]. apply es_octal; assumption.
      * destruct (ch c "x") eqn:X; [apply ch_eq in X; subst c; apply hex_code in E; destruct E as (t & -> & L & F & _); exists ("x"%char :: t); split; [reflexivity|apply es_hex; assumption]|].
        destruct (ch c "u") eqn:U; [apply ch_eq in U; subst c; apply hex_code in E; destruct E as (t & -> & L & F & M & G); exists ("u"%char :: t); split; [reflexivity|apply es_short; [assumption..|unfold code_point; lia]]|].
        destruct (ch c "U") eqn:UU; [|discriminate]. apply ch_eq in UU. subst c. apply hex_code in E. destruct E as (t & -> & L & F & M & G). exists ("U"%char :: t). split; [reflexivity|apply es_long; [assumption..|unfold code_point; lia]].
  - intros (e & -> & G). destruct G as [c H|t L F M|t L F|t L F C|t L F C].
    + cbn [app escape]. rewrite (proj2 (orb_true_iff _ _)); [reflexivity|]. rewrite simple_iff, ch_eq. exact H.
    + destruct t as [|c t]; [discriminate|]. inversion F as [|? ? Hc _]; subst. apply oct_iff in Hc. change ((c :: t) ++ r) with (c :: t ++ r). cbn [escape]. rewrite (simple_not_oct c Hc), (Qq c Hc), Hc. cbn [orb].
      apply oct_code. exists (c :: t). split; [reflexivity|]. split; [exact L|]. split; [exact F|]. split; [exact M|lia].
    + cbn [app escape]. change (existsb (ch "x") (str "abfnrtv\")) with false. rewrite Qx. cbn [orb]. change (is_oct "x") with false. change (ch "x" "x") with true. cbv iota.
      apply hex_code. exists t. split; [reflexivity|]. split; [exact L|]. split; [exact F|]. pose proof (value_bound t F) as B. rewrite L in B. change (16 ^ N.of_nat 2)%N with 256%N in B. lia.
    + cbn [app escape]. change (existsb (ch "u") (str "abfnrtv\")) with false. rewrite Qu. cbn [orb]. change (is_oct "u") with false. change (ch "u" "x") with false. change (ch "u" "u") with true. cbv iota.
      apply hex_code. exists t. unfold code_point in C. split; [reflexivity|]. split; [exact L|]. split; [exact F|]. lia.
    + cbn [app escape]. change (existsb (ch "U") (str "abfnrtv\")) with false. rewrite QU. cbn [orb]. change (is_oct "U") with false. change (ch "U" "x") with false. change (ch "U" "u") with false. change (ch "U" "U") with true. cbv iota.
      apply hex_code. exists t. unfold code_point in C. split; [reflexivity|]. split; [exact L|]. split; [exact F|]. lia.
Qed.
(** An escape sequence: one character, then digits. *)
Definition inert (q c : ascii) : Prop := ch c q = false /\ ch c nl = false /\ ch c "\" = false.
Lemma hex_inert q c : q = dquote \/ q = "'"%char -> hex_digit c -> inert q c.
Proof. intros Hq H. apply hex_iff in H. unfold inert. destruct Hq as [->| ->]; destruct c as [[] [] [] [] [] [] [] []]; vm_compute in H; try discriminate H; repeat split; reflexivity. Qed.
Lemma hex_plain c : hex_digit c -> plain c.
Proof. intros H. apply hex_iff in H. unfold plain. destruct c as [[] [] [] [] [] [] [] []]; vm_compute in H; try discriminate H; split; reflexivity. Qed.
Lemma escape_shape q e : q = dquote \/ q = "'"%char -> go_escape q e -> exists c t, e = c :: t /\ ch c nl = false /\ plain c /\ Forall (inert q) t /\ Forall plain t.
Proof.
  intros Hq G.
  assert (Hx : forall t, Forall hex_digit t -> Forall (inert q) t /\ Forall plain t).
  { intros t F. split; revert F; apply Forall_impl; intros c H; [exact (hex_inert q c Hq H)|exact (hex_plain c H)]. }
  assert (X : forall c t, ch c nl = false -> plain c -> Forall hex_digit t -> exists c' t', c :: t = c' :: t' /\ ch c' nl = false /\ plain c' /\ Forall (inert q) t' /\ Forall plain t').
  { intros c t A B F. exists c, t. split; [reflexivity|]. split; [exact A|]. split; [exact B|exact (Hx t F)]. }
  destruct G as [c H|t L F M|t L F|t L F C|t L F C].
  - apply X; [..|constructor].
    + destruct H as [H| ->]; [cbn in H; repeat (destruct H as [<-|H]; [reflexivity|]); destruct H|destruct Hq as [->| ->]; reflexivity].
    + destruct H as [H| ->]; [cbn in H; repeat (destruct H as [<-|H]; [split; reflexivity|]); destruct H|destruct Hq as [->| ->]; split; reflexivity].
  - destruct t as [|c t]; [discriminate|]. inversion F as [|? ? Hc F']; subst. apply oct_hex in Hc. destruct (hex_inert q c Hq Hc) as (_ & A & _). apply X; [exact A|exact (hex_plain c Hc)|]. revert F'. apply Forall_impl. exact oct_hex.
  - apply X; [reflexivity|split; reflexivity|exact F].
  - apply X; [reflexivity|split; reflexivity|exact F].
  - apply X; [reflexivity|split; reflexivity|exact F].
Qed.
Lemma quoted_inert q t r : Forall (inert q) t -> quoted q false (t ++ r) = Some (t ++ r, []) <-> quoted q false r = Some (r, []).
Proof.
  induction 1 as [|c t (A & B & C) F IH]; [tauto|]. cbn [app quoted]. rewrite A, B, C. cbn [negb andb]. rewrite <- IH.
  destruct (quoted q false (t ++ r)) as [[a b]|]; split; intros E; try discriminate; injection E as -> ->; reflexivity.
Qed.
Lemma quoted_escape q e r : q = dquote \/ q = "'"%char -> go_escape q e -> quoted q false ("\"%char :: e ++ r) = Some ("\"%char :: e ++ r, []) <-> quoted q false r = Some (r, []).
Proof.
  intros Hq G. destruct (escape_shape q e Hq G) as (c & t & -> & Nl & _ & F & _). cbn [app quoted]. assert (ch "\" q = false) as -> by (destruct Hq as [->| ->]; reflexivity). change (ch "\" nl) with false. change (ch "\" "\") with true. cbn [negb andb]. rewrite Nl.
  rewrite <- (quoted_inert q t r F). destruct (quoted q false (t ++ r)) as [[a b]|]; split; intros E; try discriminate; injection E as -> ->; reflexivity.
Qed.
Lemma char_inert q k : q = dquote \/ q = "'"%char -> utf8_char k -> k <> [q] -> k <> [nl] -> k <> str "\" -> Forall (inert q) k.
Proof.
  intros Hq K N1 N2 N3. destruct (char_bytes k K) as (c & t & -> & F & _ & _ & B).
  assert (H : forall x, (128 <= byte_val x)%N -> inert q x).
  { intros x Hx. unfold inert. repeat split; (match goal with |- ?b = false => destruct b eqn:E end; [|reflexivity]); apply ch_eq in E; subst x; exfalso; [destruct Hq as [->| ->]|..]; vm_compute in Hx; exact (Hx eq_refl). }
  constructor.
  - destruct t as [|d t]; [|apply H, B; discriminate]. unfold inert. repeat split; (match goal with |- ?b = false => destruct b eqn:E end; [|reflexivity]); apply ch_eq in E; subst c; exfalso; [apply N1|apply N2|apply N3]; reflexivity.
  - revert F. apply Forall_impl. intros x [Hx _]. exact (H x Hx).
Qed.
Lemma source_drop e r : Forall plain e -> go_source (e ++ r) -> go_source r.
Proof. induction 1 as [|c e P _ IH]; [auto|]. cbn [app]. intros S. apply IH. exact (source_tail c _ P S). Qed.

Lemma elements_words q n : q = dquote \/ q = "'"%char -> forall a m, go_source a -> quoted q false a = Some (a, []) -> elements n q a = Some m ->
  exists ts, a = List.concat ts ++ [q] /\ Forall (go_element q) ts /\ List.length ts = m.
Proof.
  intros Hq. induction n as [|n IH]; intros a m S Q E; [discriminate|]. destruct a as [|c a]; [discriminate|]. cbn [elements] in E. destruct (ch c q) eqn:Cq.
  - apply ch_eq in Cq. subst c. destruct a; [|discriminate]. injection E as <-. exists []. auto.
  - destruct (ch c "\") eqn:Cb.
    + apply ch_eq in Cb. subst c. destruct (escape q a) as [r|] eqn:Es; [|discriminate]. apply (escape_iff q a r Hq) in Es. destruct Es as (e & -> & G).
      apply (quoted_escape q e r Hq G) in Q. destruct (escape_shape q e Hq G) as (c' & t & Ee & _ & Pc & _ & Pt).
      assert (Sr : go_source r). { apply (source_drop ("\"%char :: e)); [|exact S]. constructor; [split; reflexivity|]. rewrite Ee. constructor; assumption. }
      destruct (elements n q r) as [m'|] eqn:Er; [|discriminate]. injection E as <-. destruct (IH r m' Sr Q Er) as (ts & -> & F & L). exists (("\"%char :: e) :: ts). split; [cbn; rewrite <- app_assoc; reflexivity|]. split; [constructor; [constructor; exact G|exact F]|cbn; congruence].
    + inversion S as [|k t K S' Ek]. rewrite <- Ek in E. rewrite (char_front k t (proj1 K)) in E.
      assert (Sk : skipn (List.length k) (k ++ t) = t) by (rewrite skipn_app, Nat.sub_diag, skipn_all; reflexivity). rewrite Sk in E.
      assert (Hk : k <> [q] /\ k <> [nl] /\ k <> str "\").
      { repeat split; intros ->; cbn in Ek; injection Ek as <- <-.
        - rewrite (proj2 (ch_eq q q) eq_refl) in Cq. discriminate.
        - cbn [quoted] in Q. rewrite Cq in Q. discriminate.
        - discriminate. }
      destruct Hk as (N1 & N2 & N3). rewrite <- Ek in Q. apply (quoted_inert q k t (char_inert q k Hq (proj1 K) N1 N2 N3)) in Q.
      destruct (elements n q t) as [m'|] eqn:Er; [|discriminate]. injection E as <-. destruct (IH t m' S' Q Er) as (ts & -> & F & L). exists (k :: ts). split; [cbn; rewrite <- app_assoc; reflexivity|]. split; [constructor; [constructor; assumption|exact F]|cbn; congruence].
Qed.
Lemma words_elements q ts : q = dquote \/ q = "'"%char -> Forall (go_element q) ts -> go_source (List.concat ts ++ [q]) /\ quoted q false (List.concat ts ++ [q]) = Some (List.concat ts ++ [q], []) /\
  forall n, List.length (List.concat ts ++ [q]) <= n -> elements n q (List.concat ts ++ [q]) = Some (List.length ts).
Proof.
  intros Hq. induction 1 as [|k ts G F (S & Q & E)].
  - cbn [List.concat app]. split; [apply source_plain; repeat constructor; destruct Hq as [->| ->]; reflexivity|]. split; [cbn [quoted]; rewrite (proj2 (ch_eq q q) eq_refl); reflexivity|].
    intros [|n] L; [cbn in L; lia|]. cbn [elements]. rewrite (proj2 (ch_eq q q) eq_refl). reflexivity.
  - cbn [List.concat]. rewrite <- app_assoc. destruct G as [k K N1 N2 N3|e G].
    + pose proof (char_inert q k Hq (proj1 K) N1 N2 N3) as In. split; [constructor; assumption|]. split; [apply quoted_inert; assumption|]. intros [|n] L; [rewrite !app_length in L; cbn in L; lia|].
      destruct (char_bytes k (proj1 K)) as (c & t & Ek & _). rewrite app_length in L. assert (List.length k <> 0) by (rewrite Ek; discriminate).
      pose proof (char_front k (List.concat ts ++ [q]) (proj1 K)) as Fr.
      assert (Sk : skipn (List.length k) (k ++ List.concat ts ++ [q]) = List.concat ts ++ [q]) by (rewrite skipn_app, Nat.sub_diag, skipn_all; reflexivity).
      rewrite Ek in *. inversion In as [|? ? (A & _ & C) _]; subst. cbn [app elements] in *. rewrite A, C, Fr, Sk. rewrite (E n) by lia. reflexivity.
    + destruct (escape_shape q e Hq G) as (c & t & Ee & _ & Pc & _ & Pt). split.
      { apply source_app; [|exact S]. apply source_plain. constructor; [split; reflexivity|]. rewrite Ee. constructor; assumption. }
      split; [apply (quoted_escape q e _ Hq G); exact Q|]. intros [|n] L; [cbn in L; lia|]. cbn [app elements]. assert (ch "\" q = false) as -> by (destruct Hq as [->| ->]; reflexivity). change (ch "\" "\") with true. cbv iota.
      rewrite (proj2 (escape_iff q (e ++ List.concat ts ++ [q]) (List.concat ts ++ [q]) Hq)); [|exists e; auto]. cbn [app List.length] in L. rewrite app_length in L. rewrite (E n) by lia. reflexivity.
Qed.

Theorem literal_words k v : scanned_literal k v <-> go_lit k v.
Proof.
  rewrite scanned_literal_iff. unfold lit_chars. rewrite number_words. split.
  - intros [[[[-> H]|[[-> H]|[-> H]]]|H] S]; [constructor; exact H..|].
    destruct k; cbn [str_chars] in H; try contradiction.
    + destruct H as (a & -> & Q & G). unfold good_quoted in G. destruct (elements (List.length a) "'" a) as [m|] eqn:E; [|discriminate]. apply Nat.eqb_eq in G. subst m.
      apply source_tail in S; [|split; reflexivity]. destruct (elements_words "'" _ (or_intror eq_refl) a 1 S Q E) as (ts & -> & F & L). destruct ts as [|t [|? ?]]; try discriminate. inversion F; subst.
      cbn [List.concat]. rewrite app_nil_r. apply (gl_char t). assumption.
    + destruct H as [(a & -> & Q & G)|(a & -> & Q & C)].
      * unfold good_quoted in G. destruct (elements (List.length a) dquote a) as [m|] eqn:E; [|discriminate]. apply source_tail in S; [|split; reflexivity].
        destruct (elements_words dquote _ (or_introl eq_refl) a m S Q E) as (ts & -> & F & L). exact (gl_string ts F).
      * apply raw_words in Q. destruct Q as (t & -> & G). apply no_cr_iff in C. apply gl_raw; [|exact G|intros I; apply C, in_or_app; auto].
        apply (source_part (str "`") t (str "`") S). apply (within_between "`" t "`"); [reflexivity..|]. exists [], []. rewrite app_nil_r. exact (source_utf8 _ S).
  - intros H. destruct H as [t H|t H|t H|t H|ts H|t H0 H1 H2].
    + assert (N : num_chars LInt t) by (apply number_words; auto). split; [auto|exact (number_source _ _ N)].
    + assert (N : num_chars LFloat t) by (apply number_words; auto). split; [auto|exact (number_source _ _ N)].
    + assert (N : num_chars LImag t) by (apply number_words; auto). split; [auto|exact (number_source _ _ N)].
    + destruct (words_elements "'" [t] (or_intror eq_refl) ltac:(auto)) as (S & Q & E). cbn [List.concat] in *. rewrite app_nil_r in *. split; [right; exists (t ++ ["'"%char])|].
      * split; [reflexivity|]. split; [exact Q|]. unfold good_quoted. rewrite (E _ (le_n _)). reflexivity.
      * apply (source_app (str "'")); [apply source_plain; repeat constructor|exact S].
    + destruct (words_elements dquote ts (or_introl eq_refl) H) as (S & Q & E). split; [right; left; exists (List.concat ts ++ [dquote])|].
      * split; [reflexivity|]. split; [exact Q|]. unfold good_quoted. rewrite (E _ (le_n _)). reflexivity.
      * apply (source_app [dquote]); [apply source_plain; repeat constructor|exact S].
    + split; [right; right; exists (t ++ str "`")|].
      * split; [reflexivity|]. split; [apply raw_words; eauto|]. apply no_cr_iff. intros I. apply in_app_or in I. destruct I as [I|[I|[]]]; [contradiction|discriminate].
      * apply (source_app (str "`")); [apply source_plain; repeat constructor|]. apply source_app; [exact H0|apply source_plain; repeat constructor].
Qed.

Lemma name_iff x : go_identifier x <-> name_chars x.
Proof. rewrite <- name_words. apply scanned_name_iff. Qed.
Lemma literal_iff k v : go_lit k v <-> lit_chars k v /\ go_source v.
Proof. rewrite <- literal_words. apply scanned_literal_iff. Qed.
