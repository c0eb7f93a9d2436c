(** Parse errors: their places and the file name in them. *)
From Coq Require Import Decimal.
From Coq Require Import List.
From Verif Require Import Text GoAst Ast Utf8 GoExpr Peg Grammar Parse SpecUtf8 SpecPrint SpecCmd SpecErr CmdFacts PegPoints PegSem PegAgree PegTerm ParseFacts.
From Coq Require Import NArith Arith Bool Lia DecimalString DecimalNat DecimalPos DecimalN.

(** ** Decimals *)
Lemma lu_nat d : DecimalNat.Unsigned.of_lu d = N.to_nat (DecimalPos.Unsigned.of_lu d).
Proof.
  induction d; cbn [DecimalNat.Unsigned.of_lu DecimalPos.Unsigned.of_lu]; [reflexivity|..]; rewrite IHd; lia.
Qed.
Lemma uint_nat d : Nat.of_uint d = N.to_nat (N.of_uint d).
Proof. unfold N.of_uint. rewrite DecimalNat.Unsigned.of_uint_alt, DecimalPos.Unsigned.of_uint_alt. apply lu_nat. Qed.
Lemma decN_decimal n : decimal (N.to_nat n) (decN n).
Proof.
  assert (Nm : unorm (N.to_uint n) = N.to_uint n) by (rewrite <- DecimalN.Unsigned.to_of, DecimalN.Unsigned.of_to; reflexivity).
  assert (Ne : N.to_uint n <> Nil) by (intros E; rewrite E in Nm; discriminate).
  assert (D : decN n = digits_of (N.to_uint n)).
  { unfold decN, str. rewrite <- digits_string. unfold NilZero.string_of_uint. destruct (N.to_uint n); [contradiction|reflexivity..]. }
  unfold decimal. rewrite D. split; [apply digits_digit|]. split; [rewrite number_digits, uint_nat, DecimalN.Unsigned.of_to; reflexivity|].
  split; [destruct (N.to_uint n); [contradiction|discriminate..]|]. intros H Z. apply H. apply digits_unorm_head; assumption.
Qed.

(** ** Places *)
Lemma runes_snoc after k current n : (utf8_char k \/ exists c, k = [c] /\ forall k' r, utf8_char k' -> c :: after <> k' ++ r) ->
  runes (k ++ after) current n -> runes after (current ++ k) (S n).
Proof.
  intros K R. induction R as [|k0 t n K0 R IH|c t n B R IH].
  - cbn. destruct K as [K|(c & -> & B)].
    + rewrite <- (app_nil_r k). constructor; [exact K|constructor].
    + apply runes_bad; [exact B|constructor].
  - rewrite <- app_assoc. constructor; assumption.
  - cbn. apply runes_bad; [|exact IH]. intros k' r K'. rewrite <- app_assoc. apply B. exact K'.
Qed.
Lemma newlines_none t : ~ In nl t -> newlines t = 0%nat.
Proof. apply count_occ_not_In. Qed.
Lemma newlines_app a b : newlines (a ++ b) = (newlines a + newlines b)%nat.
Proof. apply count_occ_app. Qed.

(** One rune at the start of a text. *)
Lemma rune_step t r n : t <> [] -> decode_rune t = (r, n) ->
  exists k t', t = k ++ t' /\ List.length k = n /\ (utf8_char k \/ exists c, k = [c] /\ forall k' x, utf8_char k' -> c :: t' <> k' ++ x) /\
    (r = 10%N -> k = [nl]) /\ (r <> 10%N -> ~ In nl k).
Proof.
  intros Ne E.
  assert (Q : exists k t', t = k ++ t' /\ List.length k = n /\ (utf8_char k \/ exists c, k = [c] /\ forall k' x, utf8_char k' -> c :: t' <> k' ++ x)).
  { destruct (N.eq_dec r RuneError) as [R|R]; [destruct (Nat.eq_dec n 1) as [W|W]|].
    - destruct t as [|c t]; [contradiction|]. exists [c], t. split; [reflexivity|]. split; [auto|]. right. exists c. split; [reflexivity|].
      intros k' x K X. rewrite X in E. destruct (utf8_decode k' x K) as (r' & D & S). rewrite D in E. inversion E; subst.
      specialize (S ltac:(assumption)). vm_compute in S. discriminate.
    - destruct (decode_utf8 t r n Ne E) as (k & t' & -> & K & ->); [tauto|]. exists k, t'. auto.
    - destruct (decode_utf8 t r n Ne E) as (k & t' & -> & K & ->); [tauto|]. exists k, t'. auto. }
  destruct Q as (k & t' & -> & L & K). exists k, t'. split; [reflexivity|]. split; [exact L|]. split; [exact K|].
  destruct k as [|c k].
  { exfalso. destruct K as [K|(c & X & _)]; [inversion K|discriminate]. }
  cbn [app] in E. split.
  - intros ->. destruct (decode_small _ _ _ _ E ltac:(reflexivity)) as (B & W & _). cbn in L. assert (k = []) as -> by (destruct k; [reflexivity|cbn in L; lia]).
    f_equal. apply (f_equal ascii_of_N) in B. unfold byte_val in B. rewrite ascii_N_embedding in B. rewrite <- B. reflexivity.
  - intros R I. assert (C : c = nl -> False).
    { intros ->. rewrite decode_ascii in E by reflexivity. inversion E; subst. apply R. reflexivity. }
    destruct I as [I|I]; [auto|]. destruct K as [K|(d & X & _)]; [|inversion X; subst; destruct I].
    inversion K; subst; unfold tail_byte, byte_in in *; cbn in I;
      repeat match goal with H : _ \/ _ |- _ => destruct H as [H|H] | H : False |- _ => destruct H end;
      match goal with H : ?b = nl |- _ => rewrite H in *; change (byte_val nl) with 10%N in *; lia end.
Qed.

Definition placed (data : text) (p : savepoint) : Prop :=
  exists done current n, data = done ++ current ++ rest p /\ N.to_nat (offset (pos p)) = List.length (done ++ current) /\
    ~ In nl current /\ (done = [] \/ exists d, done = d ++ [nl]) /\ runes (rest p) current n /\
    (if (rn p =? 10)%N then N.to_nat (line (pos p)) = 2 + newlines done /\ N.to_nat (col (pos p)) = 0
     else N.to_nat (line (pos p)) = 1 + newlines done /\ N.to_nat (col (pos p)) = S n)%nat.
Lemma pts_placed data i : before_end data i -> placed data (pts data i).
Proof.
  induction i as [|i IH]; intros B.
  - exists [], [], 0%nat. cbn [pts]. rewrite read_pt_rest, read_pt_offset. cbn [origin w rest pos offset skipn app List.length].
    split; [reflexivity|]. split; [reflexivity|]. split; [intros []|]. split; [auto|]. split; [constructor|].
    unfold read_pt. cbn [origin w rest pos skipn]. destruct (decode_rune data) as [c n]. cbn [rn pos line col]. destruct (c =? 10)%N; cbn; auto.
  - destruct IH as (done & current & n & E & O & Nc & D & R & LC); [intros j H; apply B; lia|].
    assert (Ne : rest (pts data i) <> []) by (apply B; lia).
    destruct (rune_step _ _ _ Ne (pts_decoded data i)) as (k & t' & Ek & Lk & K & K1 & K2).
    assert (Er : rest (pts data (S i)) = t').
    { cbn [pts]. rewrite read_pt_rest, Ek, <- Lk, skipn_app, skipn_all, Nat.sub_diag. reflexivity. }
    assert (Eo : N.to_nat (offset (pos (pts data (S i)))) = (List.length (done ++ current) + List.length k)%nat).
    { cbn [pts]. rewrite read_pt_offset. rewrite Lk. lia. }
    assert (Elc : N.to_nat (line (pos (pts data (S i)))) = (N.to_nat (line (pos (pts data i))) + if (rn (pts data (S i)) =? 10)%N then 1 else 0)%nat /\
                  N.to_nat (col (pos (pts data (S i)))) = (if (rn (pts data (S i)) =? 10)%N then 0 else S (N.to_nat (col (pos (pts data i)))))%nat).
    { cbn [pts]. unfold read_pt. destruct (decode_rune _) as [c m]. cbn [rn pos line col]. destruct (c =? 10)%N; split; lia. }
    unfold placed. rewrite Er, Eo. destruct Elc as [-> ->].
    destruct (N.eqb_spec (rn (pts data i)) 10) as [Z|Z].
    + destruct LC as [-> ->]. pose proof (K1 Z) as ->. exists (done ++ current ++ [nl]), [], 0%nat.
      assert (Nn : newlines (done ++ current ++ [nl]) = S (newlines done)) by (rewrite !newlines_app, (newlines_none current Nc); cbn; lia).
      rewrite Nn. split; [rewrite E, Ek; rewrite <- !app_assoc; reflexivity|]. split; [rewrite app_nil_r, !app_length; cbn; lia|].
      split; [intros []|]. split; [right; exists (done ++ current); rewrite <- app_assoc; reflexivity|]. split; [constructor|].
      destruct (rn (pts data (S i)) =? 10)%N; split; lia.
    + destruct LC as [-> ->]. exists done, (current ++ k), (S n). split; [rewrite E, Ek; rewrite <- !app_assoc; reflexivity|].
      split; [rewrite !app_length; lia|]. split; [intros I; apply in_app_or in I; destruct I as [I|I]; [auto|exact (K2 Z I)]|]. split; [exact D|].
      split; [apply runes_snoc; [exact K|rewrite <- Ek; exact R]|]. destruct (rn (pts data (S i)) =? 10)%N; split; lia.
Qed.
Lemma Reach_place data p : Reach data p -> place data (N.to_nat (offset (pos p))) (N.to_nat (line (pos p))) (N.to_nat (col (pos p))).
Proof.
  intros R. pose proof (Reach_decoded data p R) as Dc. destruct R as (i & -> & B). destruct (pts_placed data i B) as (done & current & n & E & O & Nc & D & Ru & LC).
  exists done, current, (rest (pts data i)). split; [exact E|]. split; [exact O|]. split; [exact Nc|]. split; [exact D|].
  destruct (N.eqb_spec (rn (pts data i)) 10) as [Z|Z].
  - left. destruct LC as [-> ->]. split; [|auto].
    assert (Ne : rest (pts data i) <> []) by (intros X; rewrite X in Dc; rewrite decode_nil in Dc; inversion Dc as [[X1 X2]]; rewrite <- X1 in Z; discriminate).
    destruct (rune_step _ _ _ Ne Dc) as (k & t' & Ek & _ & _ & K1 & _). rewrite (K1 Z) in Ek. exists t'. exact Ek.
  - right. destruct LC as [-> ->]. split; [|eauto]. intros t X. rewrite X, decode_ascii in Dc by reflexivity. inversion Dc as [[X1 X2]]. apply Z. rewrite <- X1. reflexivity.
Qed.

(** ** The errors of a parse *)
Section Errors.
  Variable gp : text -> res gexpr.
  Lemma parse_errors data : match parse_fuel gp (parse_bound data) data with None => False | Some (v, es) => Forall (err_ok data) es end.
  Proof.
    unfold parse_fuel. pose proof (parse_terminates gp data) as T. unfold start in T.
    pose proof (parse_effect (run_action gp) the_grammar data grammar_lits (parse_bound data) (str "File") g_File [] (read None (init_state data)) ltac:(vm_compute; reflexivity) (init_inv data)) as F.
    destruct (parse_expr _ _ _ _ _ _ _) as [|m rl s|v [] en s]; cbn [effect] in F.
    - contradiction.
    - destruct F as [I _]. apply (addErrAt_inv data m (pt s) (Some rl) [] s I (inv_pt _ _ I)).
    - destruct F as [I _]. apply I.
    - destruct F as [I _]. destruct (errs s) as [|e es] eqn:E.
      + cbn [errs addErrAt]. rewrite E. cbn. constructor; [|constructor]. cbn. apply I.
      + rewrite <- E. apply I.
  Qed.

  (** Message without the file name. *)
  Definition plain (e : perror) : text := render_error [] e.
  Lemma render_label fn e : render_error fn e = label fn (plain e).
  Proof. unfold render_error, plain, label. destruct fn; [reflexivity|]. unfold render_error. cbn [app]. rewrite <- !app_assoc. reflexivity. Qed.
  Lemma label_inj fn a b : label fn a = label fn b -> a = b.
  Proof. unfold label. destruct fn; [auto|]. intros E. apply app_inv_head in E. apply app_inv_head in E. exact E. Qed.
  Lemma label_eqb fn a b : text_eqb (label fn a) (label fn b) = text_eqb a b.
  Proof.
    destruct (text_eqb a b) eqn:E; [apply text_eqb_eq in E; subst; apply text_eqb_refl|]. rewrite <- not_true_iff_false in *. intros H. apply E.
    apply text_eqb_eq in H. apply text_eqb_eq. apply (label_inj fn). exact H.
  Qed.
  Lemma dedupe_label fn l : forall seen, dedupe (map (label fn) seen) (map (label fn) l) = map (label fn) (dedupe seen l).
  Proof.
    induction l as [|x l IH]; intros seen; [reflexivity|]. cbn [map dedupe].
    assert (X : existsb (text_eqb (label fn x)) (map (label fn) seen) = existsb (text_eqb x) seen).
    { clear. induction seen as [|y seen IH]; [reflexivity|]. cbn. rewrite label_eqb, IH. reflexivity. }
    rewrite X. destruct (existsb _ seen); [apply IH|]. cbn [map]. f_equal. apply (IH (x :: seen)).
  Qed.
  Lemma dedupe_incl l : forall seen, incl (dedupe seen l) l.
  Proof. induction l as [|x l IH]; intros seen y I; cbn in I; [exact I|]. destruct (existsb _ seen); [right; eapply IH; eauto|]. destruct I as [->|I]; [left; reflexivity|right; eapply IH; eauto]. Qed.
  Lemma dedupe_head l : l <> [] -> dedupe [] l <> [].
  Proof. destruct l; [congruence|]. cbn. discriminate. Qed.
  Lemma join_sep s l : join_with s l = sep_by s l.
  Proof. induction l as [|x l IH]; [reflexivity|]. destruct l; [reflexivity|]. cbn in *. rewrite IH. reflexivity. Qed.

  (** The messages of a failed parse, for every file name. *)
  Lemma parse_messages data :
    (exists f, forall fn, Parse gp fn data = Ok f) \/
    exists es, es <> [] /\ Forall (err_ok data) es /\ forall fn, Parse gp fn data = Err (sep_by [nl] (map (label fn) (dedupe [] (map plain es)))).
  Proof.
    pose proof (parse_errors data) as F. unfold Parse. destruct (parse_fuel gp (parse_bound data) data) as [[v es]|] eqn:E; [|contradiction].
    destruct es as [|e es].
    - left. assert (T : forall fn, Parse gp fn data = cast v None) by (intros fn; unfold Parse; rewrite E; reflexivity).
      destruct (parse_total gp [] data) as [[f H]|[m H]]; rewrite T in H.
      + exists f. intros fn. exact H.
      + exfalso. destruct v; discriminate.
    - right. exists (e :: es). split; [discriminate|]. split; [exact F|]. intros fn. cbn [errlist_err cast]. rewrite join_sep. do 2 f_equal.
      rewrite <- dedupe_label. cbn [map]. f_equal. rewrite render_label. f_equal. rewrite map_map. apply map_ext. intros x. apply render_label.
  Qed.
  Lemma plain_place data e : err_ok data e -> exists k l c dk dl dc rest, (place data k l c \/ k = 0 /\ l = 1 /\ c = 1)%nat /\
    decimal k dk /\ decimal l dl /\ decimal c dc /\ plain e = dl ++ str ":" ++ dc ++ str " (" ++ dk ++ str ")" ++ rest.
  Proof.
    intros O. exists (N.to_nat (offset (e_pos e))), (N.to_nat (line (e_pos e))), (N.to_nat (col (e_pos e))).
    eexists _, _, _, _. split; [|split; [apply decN_decimal|split; [apply decN_decimal|split; [apply decN_decimal|]]]].
    - destruct O as [(p & R & ->)| ->]; [left; apply Reach_place; exact R|right; auto].
    - unfold plain, render_error, render_pos. cbn [app]. rewrite <- !app_assoc. reflexivity.
  Qed.
End Errors.
