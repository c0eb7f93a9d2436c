(** The reference Go scanner: numbers in parts. *)
From Verif Require Import Text GoAst GoParser.
From Coq Require Import NArith Arith Bool Lia.
Open Scope nat_scope.
Open Scope list_scope.

Lemma ch_eq a b : ch a b = true <-> a = b.
Proof. unfold ch. destruct (ascii_dec a b); split; congruence. Qed.
Lemma span_eq p s a r : span p s = (a, r) -> s = a ++ r /\ Forall (fun c => p c = true) a /\ (forall c r', r = c :: r' -> p c = false).
Proof.
  revert a r. induction s as [|c s IH]; intros a r E; cbn in E; [inversion E; subst; repeat split; [constructor|discriminate]|].
  destruct (p c) eqn:Pc; [destruct (span p s) as [a' r'] eqn:Es; inversion E; subst; destruct (IH a' r eq_refl) as (-> & F & N); repeat split; auto|].
  inversion E; subst. repeat split; [constructor|]. intros d r' X. inversion X; subst. exact Pc.
Qed.
Lemma span_app p a b : Forall (fun c => p c = true) a -> (forall c r, b = c :: r -> p c = false) -> span p (a ++ b) = (a, b).
Proof.
  intros F N. induction F as [|c a Hc F IH]; cbn; [|rewrite Hc, IH; reflexivity]. destruct b as [|c b]; [reflexivity|]. cbn. rewrite (N c b eq_refl). reflexivity.
Qed.

(** What can follow a number: nothing that would continue it.  Only an integer is continued by a point. *)
Definition num_end (k : litkind) (b : text) : Prop := forall c r, b = c :: r -> is_alnum c = false /\ (k = LInt -> c <> "."%char).
Lemma num_end_nil k : num_end k []. Proof. discriminate. Qed.

Ltac ascii_cases c := destruct c as [[] [] [] [] [] [] [] []]; vm_compute in *; try congruence.
Lemma alnum_digits x c : is_alnum c = false -> in_digits x c = false.
Proof. intros H. destruct x; ascii_cases c. Qed.
Lemma dot_digits x : in_digits x "." = false. Proof. destruct x; reflexivity. Qed.
Lemma i_digits x : in_digits x "i" = false. Proof. destruct x; reflexivity. Qed.
Lemma digits_hard_char x c : in_digits x c = true -> is_alnum c = true.
Proof. intros H. destruct (is_alnum c) eqn:E; [reflexivity|]. rewrite (alnum_digits x c E) in H. discriminate. Qed.
Definition exp_letter (e : ascii) : bool := ch e "e" || ch e "E" || ch e "p" || ch e "P".
Lemma alnum_letter c : is_alnum c = false -> exp_letter c = false. Proof. intros H. ascii_cases c. Qed.
Lemma letter_alnum c : exp_letter c = true -> is_alnum c = true /\ c <> "."%char /\ c <> "i"%char.
Proof. intros H. destruct c as [[] [] [] [] [] [] [] []]; vm_compute in H; try discriminate H; repeat split; discriminate. Qed.
Lemma decimal_letter c : exp_letter c = true -> in_digits Decimal c = false. Proof. intros H. ascii_cases c. Qed.
Lemma hex_letter c : exp_letter c = true -> ch c "e" || ch c "E" = false -> in_digits Hexadecimal c = false.
Proof. intros H N. ascii_cases c. Qed.

Lemma oct_not_hex c : ch c "o" || ch c "O" = true -> ch c "x" || ch c "X" = false. Proof. intros H. ascii_cases c. Qed.
Lemma bin_not_hex c : ch c "b" || ch c "B" = true -> ch c "x" || ch c "X" = false. Proof. intros H. ascii_cases c. Qed.
Lemma bin_not_oct c : ch c "b" || ch c "B" = true -> ch c "o" || ch c "O" = false. Proof. intros H. ascii_cases c. Qed.
Lemma digit_not_sign c : in_digits Decimal c = true -> ch c "+" || ch c "-" = false. Proof. intros H. ascii_cases c. Qed.
Lemma hex_alnum c : ch c "x" || ch c "X" = true -> is_alnum c = true. Proof. intros H. ascii_cases c. Qed.
Lemma oct_alnum c : ch c "o" || ch c "O" = true -> is_alnum c = true. Proof. intros H. ascii_cases c. Qed.
Lemma bin_alnum c : ch c "b" || ch c "B" = true -> is_alnum c = true. Proof. intros H. ascii_cases c. Qed.
Lemma no_prefix_letter c : in_digits Decimal c = true \/ c = "."%char \/ exp_letter c = true \/ c = "i"%char \/ is_alnum c = false ->
  (ch c "x" || ch c "X") = false /\ (ch c "o" || ch c "O") = false /\ (ch c "b" || ch c "B") = false.
Proof. intros H. destruct c as [[] [] [] [] [] [] [] []]; vm_compute in H |- *; auto; exfalso; destruct H as [H|[H|[H|[H|H]]]]; discriminate. Qed.

Definition prefixed (x : radix) (pre d1 : text) : Prop :=
  match x with
  | Decimal => pre = [] /\ forall t, d1 <> "0"%char :: t
  | Legacy => pre = [] /\ exists t, d1 = "0"%char :: t
  | Hexadecimal => exists c, pre = ["0"%char; c] /\ ch c "x" || ch c "X" = true
  | Octal => exists c, pre = ["0"%char; c] /\ ch c "o" || ch c "O" = true
  | Binary => exists c, pre = ["0"%char; c] /\ ch c "b" || ch c "B" = true
  end.
Definition sign (g : text) : Prop := g = [] \/ g = ["+"%char] \/ g = ["-"%char].
Definition all_in (x : radix) (t : text) : Prop := Forall (fun c => in_digits x c = true) t.
Record shaped (x : radix) (pre d1 fr es ed im : text) : Prop := {
  sh_prefix : prefixed x pre d1;
  sh_digits : all_in x d1;
  sh_fraction : fr = [] \/ exists f, fr = "."%char :: f /\ all_in x f;
  sh_exponent : es = [] /\ ed = [] \/ exists e g, es = e :: g /\ exp_letter e = true /\ sign g /\ all_in Decimal ed;
  sh_suffix : im = [] \/ im = ["i"%char] }.

Lemma prefix_cut s x pre r : cut_prefix s = (x, pre, r) -> s = pre ++ r /\ forall d1 t, r = d1 ++ t -> all_in x d1 -> (forall c u, t = c :: u -> in_digits x c = false) -> prefixed x pre d1.
Proof.
  unfold cut_prefix. destruct s as [|z s].
  - intros E. injection E as <- <- <-. split; [reflexivity|]. intros d1 t E _ _. destruct d1; [|discriminate]. split; [reflexivity|discriminate].
  - destruct (ch z "0") eqn:Z.
    + apply ch_eq in Z. subst z.
      assert (Lg : forall d1 t, "0"%char :: s = d1 ++ t -> (forall c u, t = c :: u -> in_digits Legacy c = false) -> prefixed Legacy [] d1).
      { intros d1 t E N. split; [reflexivity|]. destruct d1 as [|d d1]; [cbn in E; symmetry in E; specialize (N _ _ E); discriminate|]. cbn in E. injection E as <- _. exists d1. reflexivity. }
      destruct s as [|c s]; [intros E; injection E as <- <- <-; split; [reflexivity|]; intros; eapply Lg; eauto|].
      destruct (ch c "x" || ch c "X") eqn:X; [intros E; injection E as <- <- <-; split; [reflexivity|]; intros; exists c; auto|].
      destruct (ch c "o" || ch c "O") eqn:O; [intros E; injection E as <- <- <-; split; [reflexivity|]; intros; exists c; auto|].
      destruct (ch c "b" || ch c "B") eqn:B; [intros E; injection E as <- <- <-; split; [reflexivity|]; intros; exists c; auto|].
      intros E; injection E as <- <- <-; split; [reflexivity|]; intros; eapply Lg; eauto.
    + intros E. injection E as <- <- <-. split; [reflexivity|]. intros d1 t E _ _. split; [reflexivity|]. intros u ->. cbn in E. injection E as -> _. discriminate.
Qed.
Lemma fraction_cut x s fr r : cut_fraction x s = (fr, r) -> s = fr ++ r /\ (fr = [] \/ exists f, fr = "."%char :: f /\ all_in x f).
Proof.
  unfold cut_fraction. destruct s as [|c s]; [intros E; injection E as <- <-; auto|]. destruct (ch c ".") eqn:C; [|intros E; injection E as <- <-; auto].
  apply ch_eq in C. subst c. destruct (span (in_digits x) s) as [d r'] eqn:Sp. intros E. injection E as <- <-. apply span_eq in Sp. destruct Sp as (-> & F & _). split; [reflexivity|]. right. exists d. auto.
Qed.
Lemma exponent_cut s es ed r : cut_exponent s = (es, ed, r) -> s = es ++ ed ++ r /\
  (es = [] /\ ed = [] \/ exists e g, es = e :: g /\ exp_letter e = true /\ sign g /\ all_in Decimal ed).
Proof.
  unfold cut_exponent. destruct s as [|e s]; [intros E; injection E as <- <- <-; auto|]. fold (exp_letter e). destruct (exp_letter e) eqn:L; [|intros E; injection E as <- <- <-; auto].
  destruct (match s with c :: r' => if ch c "+" || ch c "-" then ([c], r') else ([], s) | [] => ([], s) end) as [g r1] eqn:G.
  assert (X : s = g ++ r1 /\ sign g).
  { destruct s as [|c s]; [injection G as <- <-; split; [reflexivity|left; reflexivity]|]. destruct (ch c "+" || ch c "-") eqn:C; injection G as <- <-; (split; [reflexivity|]); [|left; reflexivity].
    apply orb_true_iff in C. rewrite !ch_eq in C. unfold sign. destruct C as [->| ->]; auto. }
  destruct X as [-> Sg]. destruct (span (in_digits Decimal) r1) as [d r2] eqn:Sp. intros E. injection E as <- <- <-. apply span_eq in Sp. destruct Sp as (-> & F & _).
  split; [cbn; rewrite app_assoc; reflexivity|]. right. exists e, g. auto.
Qed.
Lemma suffix_cut s im r : cut_suffix s = (im, r) -> s = im ++ r /\ (im = [] \/ im = ["i"%char]).
Proof.
  unfold cut_suffix. destruct s as [|c s]; [intros E; injection E as <- <-; auto|]. destruct (ch c "i") eqn:C; intros E; injection E as <- <-; [|auto]. apply ch_eq in C. subst c. auto.
Qed.

Definition number_text (pre d1 fr es ed im : text) : text := pre ++ d1 ++ fr ++ es ++ ed ++ im.
Lemma number_shaped s k v r : lex_number s = Some (k, v, r) -> s = v ++ r /\
  exists x pre d1 fr es ed im, shaped x pre d1 fr es ed im /\ number_valid x pre d1 fr es ed im = true /\
    v = number_text pre d1 fr es ed im /\ k = number_kind fr es im.
Proof.
  unfold lex_number. destruct (cut_prefix s) as [[x pre] s0] eqn:C0. destruct (span (in_digits x) s0) as [d1 s1] eqn:C1. destruct (cut_fraction x s1) as [fr s2] eqn:C2.
  destruct (cut_exponent s2) as [[es ed] s3] eqn:C3. destruct (cut_suffix s3) as [im s4] eqn:C4. destruct (number_valid x pre d1 fr es ed im) eqn:V; [|discriminate].
  intros E. injection E as <- <- <-. apply prefix_cut in C0. destruct C0 as [-> P]. apply span_eq in C1. destruct C1 as (-> & F1 & N1).
  specialize (P d1 s1 eq_refl F1 N1). apply fraction_cut in C2. destruct C2 as [-> F2]. apply exponent_cut in C3. destruct C3 as [-> F3]. apply suffix_cut in C4. destruct C4 as [-> F4].
  split; [rewrite <- !app_assoc; reflexivity|]. exists x, pre, d1, fr, es, ed, im. split; [constructor; assumption|]. auto.
Qed.

(** ** The parts are found again *)
Definition stops (p : ascii -> bool) (s : text) : Prop := forall c r, s = c :: r -> p c = false.
Lemma stops_app p a b : (forall c t, a = c :: t -> p c = false) -> stops p b -> stops p (a ++ b).
Proof. intros A B c r E. destruct a as [|d a]; [exact (B c r E)|]. cbn in E. injection E as -> _. exact (A c a eq_refl). Qed.
Lemma has_digit_ne t : has_digit t = true -> t <> []. Proof. intros H ->. discriminate. Qed.

Lemma valid_parts x pre d1 fr es ed im : number_valid x pre d1 fr es ed im = true -> (fr = [] \/ x <> Octal /\ x <> Binary) /\ (has_digit d1 = true \/ has_digit (tl fr) = true) /\
  match es with e :: _ => (ch e "e" || ch e "E" = true /\ (x = Decimal \/ x = Legacy) \/ ch e "e" || ch e "E" = false /\ x = Hexadecimal) /\ has_digit ed = true | [] => fr = [] \/ x <> Hexadecimal end /\
  (number_kind fr es im = LInt -> Forall (fun c => digit_of x c = true \/ c = "_"%char) d1) /\ sep_ok x pre (d1 ++ fr ++ es ++ ed ++ im) = true.
Proof.
  intros V.     unfold number_valid in V. rewrite !andb_true_iff in V. destruct V as ((((V1 & V2) & V3) & V4) & V5).
  split; [destruct fr; [auto|right; cbn in V1; destruct x; split; discriminate]|]. split; [apply orb_true_iff; exact V2|]. split.
  - destruct es as [|e g].
    + destruct fr; [auto|right; cbn in V3; destruct x; discriminate].
    + apply andb_true_iff in V3. destruct V3 as [V3 V3']. split; [|exact V3']. destruct (ch e "e" || ch e "E"); destruct x; try discriminate; auto.
  - split; [|exact V5]. intros K. rewrite K in V4. rewrite forallb_forall in V4. apply Forall_forall. intros c I. specialize (V4 c I). apply orb_true_iff in V4. rewrite ch_eq in V4. exact V4.
Qed.

Section Again.
  Variables (x : radix) (pre d1 fr es ed im b : text).
  Hypothesis (Sh : shaped x pre d1 fr es ed im) (V : number_valid x pre d1 fr es ed im = true) (N : num_end (number_kind fr es im) b).
  Lemma stops_b x' : stops (in_digits x') b.
  Proof. intros c r E. destruct (N c r E) as [A _]. apply alnum_digits. exact A. Qed.
  Lemma stops_im x' : stops (in_digits x') (im ++ b).
  Proof. apply stops_app; [|apply stops_b]. intros c t E. destruct (sh_suffix _ _ _ _ _ _ _ Sh) as [->| ->]; [discriminate|]. injection E as <- <-. apply i_digits. Qed.
  Lemma ed_nil : es = [] -> ed = [].
  Proof. intros E. destruct (sh_exponent _ _ _ _ _ _ _ Sh) as [[_ X]|(e & g & X & _)]; [exact X|congruence]. Qed.
  Lemma stops_es : stops (in_digits x) (es ++ ed ++ im ++ b).
  Proof.
    destruct (sh_exponent _ _ _ _ _ _ _ Sh) as [[E1 E2]|(e & g & E1 & L & _)]; [rewrite E1, E2; apply stops_im|].
    intros c r E. rewrite E1 in E. cbn [app] in E. injection E as <- _. destruct (valid_parts _ _ _ _ _ _ _ V) as (_ & _ & V3 & _). rewrite E1 in V3. destruct V3 as [[[_ [->| ->]]|[V3 ->]] _].
    - apply decimal_letter. exact L.
    - exact (decimal_letter e L).
    - apply hex_letter; assumption.
  Qed.
  Lemma stops_fr : stops (in_digits x) (fr ++ es ++ ed ++ im ++ b).
  Proof. apply stops_app; [|apply stops_es]. intros c t E. destruct (sh_fraction _ _ _ _ _ _ _ Sh) as [->|(f & -> & _)]; [discriminate|]. injection E as <- <-. apply dot_digits. Qed.
  Lemma no_dot : fr = [] -> forall c r, es ++ ed ++ im ++ b = c :: r -> ch c "." = false.
  Proof.
    intros Fr c r E. destruct (ch c ".") eqn:D; [|reflexivity]. apply ch_eq in D. subst c. exfalso.
    destruct (sh_exponent _ _ _ _ _ _ _ Sh) as [[E1 E2]|(e & g & E1 & L & _)].
    - rewrite E1, E2 in E. cbn [app] in E. destruct (sh_suffix _ _ _ _ _ _ _ Sh) as [E3|E3]; rewrite E3 in E; cbn [app] in E; [|discriminate]. destruct (N _ _ E) as [_ X]. apply X; [|reflexivity]. rewrite Fr, E1, E3. reflexivity.
    - rewrite E1 in E. cbn [app] in E. injection E as -> _. destruct (letter_alnum _ L) as (_ & X & _). congruence.
  Qed.
  Lemma again_prefix : cut_prefix (number_text pre d1 fr es ed im ++ b) = (x, pre, d1 ++ fr ++ es ++ ed ++ im ++ b).
  Proof.
    unfold number_text. rewrite <- !app_assoc. pose proof (sh_prefix _ _ _ _ _ _ _ Sh) as P. unfold prefixed in P. destruct (valid_parts _ _ _ _ _ _ _ V) as (_ & Vd & _).
    destruct x eqn:Ex.
    - destruct P as [-> P]. cbn [app]. destruct d1 as [|d d1'].
      + destruct (sh_fraction _ _ _ _ _ _ _ Sh) as [->|(f & -> & _)]; [destruct Vd; discriminate|]. reflexivity.
      + cbn [app cut_prefix]. destruct (ch d "0") eqn:D; [apply ch_eq in D; subst d; elim (P d1' eq_refl)|reflexivity].
    - destruct P as [-> (t & Ed)]. cbn [app]. subst d1. cbn [app]. unfold cut_prefix. change (ch "0" "0") with true. cbv iota.
      assert (H : forall c r, t ++ fr ++ es ++ ed ++ im ++ b = c :: r -> (ch c "x" || ch c "X") = false /\ (ch c "o" || ch c "O") = false /\ (ch c "b" || ch c "B") = false).
      { intros c r E. apply no_prefix_letter. pose proof (sh_digits _ _ _ _ _ _ _ Sh) as F. inversion F as [|? ? _ F']; subst. destruct t as [|c' t].
        - cbn [app] in E. destruct (sh_fraction _ _ _ _ _ _ _ Sh) as [->|(f & -> & _)]; [|injection E as <- _; auto]. cbn [app] in E.
          destruct (sh_exponent _ _ _ _ _ _ _ Sh) as [[E1 E2]|(e & g & E1 & L & _)]; [|rewrite E1 in E; injection E as <- _; auto].
          rewrite E1, E2 in E. cbn [app] in E. destruct (sh_suffix _ _ _ _ _ _ _ Sh) as [E3|E3]; rewrite E3 in E; [|injection E as <- _; auto]. cbn [app] in E. destruct (N _ _ E) as [X _]. auto.
        - injection E as <- _. inversion F'; subst. auto. }
      destruct (t ++ fr ++ es ++ ed ++ im ++ b) as [|c r]; [reflexivity|]. destruct (H c r eq_refl) as (-> & -> & ->). reflexivity.
    - destruct P as (c & -> & P). cbn [app cut_prefix]. change (ch "0" "0") with true. cbv iota. rewrite P. reflexivity.
    - destruct P as (c & -> & P). cbn [app cut_prefix]. change (ch "0" "0") with true. cbv iota. rewrite P. rewrite (oct_not_hex c P). reflexivity.
    - destruct P as (c & -> & P). cbn [app cut_prefix]. change (ch "0" "0") with true. cbv iota. rewrite P. rewrite (bin_not_hex c P), (bin_not_oct c P). reflexivity.
  Qed.
  Lemma again_fraction : cut_fraction x (fr ++ es ++ ed ++ im ++ b) = (fr, es ++ ed ++ im ++ b).
  Proof.
    pose proof no_dot as D. pose proof stops_es as Q. destruct (sh_fraction _ _ _ _ _ _ _ Sh) as [E|(f & E & F)]; rewrite E.
    - cbn [app]. unfold cut_fraction. destruct (es ++ ed ++ im ++ b) as [|c r]; [reflexivity|]. rewrite (D E c r eq_refl). reflexivity.
    - cbn [app cut_fraction]. change (ch "." ".") with true. cbv iota. rewrite (span_app _ f _ F Q). reflexivity.
  Qed.
  Lemma again_exponent : cut_exponent (es ++ ed ++ im ++ b) = (es, ed, im ++ b).
  Proof.
    destruct (sh_exponent _ _ _ _ _ _ _ Sh) as [[E1 E2]|(e & g & E1 & L & G & F)].
    - rewrite E1, E2. cbn [app]. unfold cut_exponent. destruct (im ++ b) as [|c r] eqn:E; [reflexivity|]. fold (exp_letter c).
      assert (X : exp_letter c = false); [|rewrite X; reflexivity]. destruct (sh_suffix _ _ _ _ _ _ _ Sh) as [E3|E3]; rewrite E3 in E; cbn [app] in E; [destruct (N _ _ E) as [A _]; apply alnum_letter; exact A|]. injection E as <- _. reflexivity.
    - pose proof (stops_im Decimal) as Q. destruct (valid_parts _ _ _ _ _ _ _ V) as (_ & _ & V3 & _). rewrite E1 in V3 |- *. destruct V3 as [_ V3]. cbn [app cut_exponent]. fold (exp_letter e). rewrite L.
      assert (X : match g ++ ed ++ im ++ b with c :: r' => if ch c "+" || ch c "-" then ([c], r') else ([], g ++ ed ++ im ++ b) | [] => ([], g ++ ed ++ im ++ b) end = (g, ed ++ im ++ b)).
      { destruct G as [->|[->| ->]]; [|reflexivity..]. cbn [app]. destruct ed as [|d ed']; [elim (has_digit_ne _ V3 eq_refl)|]. cbn [app]. inversion F as [|? ? Fd _]; subst. rewrite (digit_not_sign d Fd). reflexivity. }
      rewrite X, (span_app _ ed _ F Q). reflexivity.
  Qed.
  Lemma again_suffix : cut_suffix (im ++ b) = (im, b).
  Proof.
    destruct (sh_suffix _ _ _ _ _ _ _ Sh) as [->| ->]; [|reflexivity]. cbn [app]. unfold cut_suffix. destruct b as [|c r]; [reflexivity|]. destruct (N c r eq_refl) as [A _].
    destruct (ch c "i") eqn:C; [apply ch_eq in C; subst; discriminate|reflexivity].
  Qed.
  Lemma again : lex_number (number_text pre d1 fr es ed im ++ b) = Some (number_kind fr es im, number_text pre d1 fr es ed im, b).
  Proof.
    unfold lex_number. rewrite again_prefix. rewrite (span_app _ d1 _ (sh_digits _ _ _ _ _ _ _ Sh) stops_fr), again_fraction, again_exponent, again_suffix, V. reflexivity.
  Qed.
End Again.

Lemma number_spec s k v r b : lex_number s = Some (k, v, r) -> s = v ++ r /\ (num_end k b -> lex_number (v ++ b) = Some (k, v, b)).
Proof.
  intros E. apply number_shaped in E. destruct E as (-> & x & pre & d1 & fr & es & ed & im & Sh & V & -> & ->). split; [reflexivity|]. intros N. apply (again x); assumption.
Qed.
Lemma number_kinds s k v r : lex_number s = Some (k, v, r) -> k = LInt \/ k = LFloat \/ k = LImag.
Proof.
  intros E. apply number_shaped in E. destruct E as (_ & x & pre & d1 & fr & es & ed & im & _ & _ & _ & ->). unfold number_kind. destruct (negb (is_nil im)); [auto|]. destruct (is_nil fr && is_nil es); auto.
Qed.
(** Its characters. *)
Definition low_alnum (c : ascii) : Prop := is_alnum c = true /\ high c = false.
Lemma low_digits x c : in_digits x c = true -> low_alnum c.
Proof. intros H. split; [exact (digits_hard_char x c H)|]. destruct x; ascii_cases c. Qed.
Lemma low_exp c : exp_letter c = true -> low_alnum c.
Proof. intros H. split; [apply (letter_alnum c H)|]. ascii_cases c. Qed.
Lemma low_hex c : ch c "x" || ch c "X" = true -> low_alnum c. Proof. intros H. split; [apply hex_alnum; exact H|]. ascii_cases c. Qed.
Lemma low_oct c : ch c "o" || ch c "O" = true -> low_alnum c. Proof. intros H. split; [apply oct_alnum; exact H|]. ascii_cases c. Qed.
Lemma low_bin c : ch c "b" || ch c "B" = true -> low_alnum c. Proof. intros H. split; [apply bin_alnum; exact H|]. ascii_cases c. Qed.
Definition number_char (c : ascii) : Prop := low_alnum c \/ c = "."%char \/ c = "+"%char \/ c = "-"%char.
Lemma in_chars x t : all_in x t -> Forall number_char t.
Proof. apply Forall_impl. intros c H. left. exact (low_digits x c H). Qed.
Lemma shaped_chars x pre d1 fr es ed im : shaped x pre d1 fr es ed im -> Forall number_char (number_text pre d1 fr es ed im).
Proof.
  intros [P D F E I]. unfold number_text. rewrite !Forall_app. split.
  { unfold prefixed in P. destruct x; destruct P as [c P]; try (subst; constructor; fail); destruct P as [-> P]; (constructor; [left; split; reflexivity|]); (constructor; [|constructor]); left; auto using low_hex, low_oct, low_bin. }
  split; [exact (in_chars x _ D)|]. split; [destruct F as [->|(f & -> & F)]; [constructor|]; constructor; [right; left; reflexivity|exact (in_chars x _ F)]|].
  split; [|split].
  - destruct E as [[-> _]|(e & g & -> & L & G & _)]; [constructor|]. constructor; [left; exact (low_exp e L)|]. destruct G as [->|[->| ->]]; (constructor; [unfold number_char; auto 6|constructor]) || constructor.
  - destruct E as [[_ ->]|(e & g & _ & _ & _ & F')]; [constructor|exact (in_chars _ _ F')].
  - destruct I as [->| ->]; repeat constructor.
Qed.
Lemma number_chars s k v r : lex_number s = Some (k, v, r) -> Forall number_char v.
Proof. intros E. apply number_shaped in E. destruct E as (_ & x & pre & d1 & fr & es & ed & im & Sh & _ & -> & _). exact (shaped_chars _ _ _ _ _ _ _ Sh). Qed.
Lemma number_nonempty s k v r : lex_number s = Some (k, v, r) -> v <> [].
Proof.
  intros E. apply number_shaped in E. destruct E as (_ & x & pre & d1 & fr & es & ed & im & Sh & V & -> & _). unfold number_text.
  destruct (valid_parts _ _ _ _ _ _ _ V) as (_ & [H|H] & _).
  - intros X. apply app_eq_nil in X. destruct X as [_ X]. apply app_eq_nil in X. destruct X as [-> _]. discriminate.
  - intros X. apply app_eq_nil in X. destruct X as [_ X]. apply app_eq_nil in X. destruct X as [_ X]. apply app_eq_nil in X. destruct X as [-> _]. discriminate.
Qed.
(** The last character is a letter, a digit or a point. *)
Lemma number_last s k v r : lex_number s = Some (k, v, r) -> exists t c, v = t ++ [c] /\ (low_alnum c \/ c = "."%char).
Proof.
  intros E. pose proof (number_nonempty _ _ _ _ E) as Ne. apply number_shaped in E. destruct E as (_ & x & pre & d1 & fr & es & ed & im & Sh & V & -> & _).
  assert (L : forall a l, l <> [] -> Forall (fun c => low_alnum c \/ c = "."%char) l -> exists t c, a ++ l = t ++ [c] /\ (low_alnum c \/ c = "."%char)).
  { intros a l N F. destruct l as [|c l] using rev_ind; [congruence|]. apply Forall_app in F. destruct F as [_ F]. inversion F; subst. exists (a ++ l), c. rewrite app_assoc. auto. }
  assert (Dg : forall x t, all_in x t -> Forall (fun c => low_alnum c \/ c = "."%char) t) by (intros x0 t; apply Forall_impl; intros c H; left; exact (low_digits x0 c H)).
  destruct (valid_parts _ _ _ _ _ _ _ V) as (_ & Hd & V3 & _). destruct Sh as [P D F Ex I]. unfold number_text in *.
  destruct I as [->| ->]; [|rewrite !app_assoc; apply L; [discriminate|repeat constructor]]. rewrite app_nil_r in *.
  destruct Ex as [[-> ->]|(e & g & -> & _ & _ & F')].
  - rewrite !app_nil_r in *. destruct F as [->|(f & -> & F)].
    + rewrite app_nil_r in *. apply L; [|exact (Dg x d1 D)]. destruct Hd as [Hd|Hd]; [exact (has_digit_ne _ Hd)|discriminate].
    + rewrite app_assoc. apply L; [discriminate|]. constructor; [auto|exact (Dg x f F)].
  - destruct V3 as [_ V3]. rewrite !app_assoc. apply L; [exact (has_digit_ne _ V3)|exact (Dg _ _ F')].
Qed.
Lemma number_head c s k v r : lex_number (c :: s) = Some (k, v, r) ->
  (is_digit c || (ch c "." && match s with d :: _ => is_digit d | [] => false end)) = true ->
  exists t, v = c :: t /\ (is_digit c || (ch c "." && match t with d :: _ => is_digit d | [] => false end)) = true.
Proof.
  intros E H. pose proof (number_nonempty _ _ _ _ E) as Ne. pose proof (proj1 (number_spec _ _ _ _ [] E)) as Es. destruct v as [|c' t]; [congruence|]. cbn in Es. injection Es as <- Es. exists t. split; [reflexivity|].
  destruct (is_digit c) eqn:Dc; [reflexivity|]. cbn [orb] in *. apply andb_true_iff in H. destruct H as [Cd Hd]. rewrite Cd. cbn [andb]. apply ch_eq in Cd. subst c.
  destruct t as [|d t]; [|cbn in Es; rewrite Es in Hd; exact Hd]. exfalso.
  apply number_shaped in E. destruct E as (_ & x & pre & d1 & fr & es & ed & im & Sh & V & E & _). destruct (valid_parts _ _ _ _ _ _ _ V) as (_ & Hh & _). unfold number_text in E.
  destruct pre as [|p pre]; [|pose proof (sh_prefix _ _ _ _ _ _ _ Sh) as P; cbn in E; injection E as <- _; unfold prefixed in P; destruct x; destruct P as [c P]; try discriminate; destruct P as [P _]; discriminate].
  cbn [app] in E. destruct d1 as [|d d1].
  - destruct Hh as [Hh|Hh]; [discriminate|]. destruct (sh_fraction _ _ _ _ _ _ _ Sh) as [->|(f & -> & _)]; [discriminate|]. cbn in E. injection E as E. symmetry in E. apply app_eq_nil in E. destruct E as [-> _]. discriminate.
  - cbn in E. injection E as <- _. pose proof (sh_digits _ _ _ _ _ _ _ Sh) as F. inversion F as [|? ? X _]; subst. rewrite dot_digits in X. discriminate.
Qed.
