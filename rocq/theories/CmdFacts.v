(** Facts about the command: loading, numbering, the generation loop. *)
From Coq Require Import Decimal.
From Coq Require Import List.
From Verif Require Import Text GoAst Ast Walk Expand Printer Smt Cmd SpecTree TreeFacts SpecExpand ExpandFacts
  FeatureFacts SpecPrint PrintFacts SpecSmt SmtGen SpecCmd.
From Coq Require Import Arith Lia DecimalString DecimalNat.

(** * Decimal numbers *)
Definition value_of (d : uint) : nat := Nat.of_uint d.

Fixpoint digits_of (d : uint) : text :=
  match d with
  | Nil => []
  | D0 d => "0"%char :: digits_of d | D1 d => "1"%char :: digits_of d | D2 d => "2"%char :: digits_of d
  | D3 d => "3"%char :: digits_of d | D4 d => "4"%char :: digits_of d | D5 d => "5"%char :: digits_of d
  | D6 d => "6"%char :: digits_of d | D7 d => "7"%char :: digits_of d | D8 d => "8"%char :: digits_of d
  | D9 d => "9"%char :: digits_of d
  end.

Lemma digits_string d : list_ascii_of_string (NilEmpty.string_of_uint d) = digits_of d.
Proof. induction d; cbn; congruence. Qed.

Lemma number_acc ds : forall acc, fold_left (fun n c => 10 * n + (nat_of_ascii c - 48)) ds acc =
  acc * 10 ^ List.length ds + number ds.
Proof.
  unfold number. induction ds as [|c ds IH]; intros acc; cbn [fold_left List.length]; [cbn; lia|].
  rewrite IH, (IH (10 * 0 + _)). cbn [Nat.pow]. lia.
Qed.
Lemma number_cons c ds : number (c :: ds) = (nat_of_ascii c - 48) * 10 ^ List.length ds + number ds.
Proof. unfold number at 1. cbn [fold_left]. rewrite number_acc. f_equal. Qed.

Lemma of_uint_acc d : forall acc, Nat.of_uint_acc d acc = fold_left (fun n c => 10 * n + (nat_of_ascii c - 48)) (digits_of d) acc.
Proof.
  induction d; intros acc; cbn [Nat.of_uint_acc digits_of fold_left]; [reflexivity|..];
    rewrite IHd; f_equal; rewrite Nat.tail_mul_spec; cbn [nat_of_ascii]; 
    match goal with |- context[nat_of_ascii ?c] => let v := eval vm_compute in (nat_of_ascii c) in change (nat_of_ascii c) with v end; lia.
Qed.

Lemma number_digits d : number (digits_of d) = Nat.of_uint d.
Proof. unfold Nat.of_uint, number. rewrite of_uint_acc. reflexivity. Qed.

Lemma digits_digit d : Forall digit (digits_of d).
Proof. induction d; cbn; constructor; try assumption; unfold digit; vm_compute; lia. Qed.

Lemma dec_digits n : exists d, dec n = digits_of d /\ d <> Nil /\ Nat.of_uint d = n /\ unorm d = d.
Proof.
  exists (Nat.to_uint n). unfold dec, str.
  assert (N : unorm (Nat.to_uint n) = Nat.to_uint n) by (rewrite <- Unsigned.to_of, Unsigned.of_to; reflexivity).
  assert (H : Nat.to_uint n <> Nil).
  { intros E. rewrite E in N. discriminate. }
  split; [|split; [exact H|split; [apply Unsigned.of_to|exact N]]].
  rewrite <- digits_string. unfold NilZero.string_of_uint. destruct (Nat.to_uint n); [contradiction|reflexivity..].
Qed.

Lemma digits_unorm_head d : unorm d = d -> hd_error (digits_of d) = Some "0"%char -> digits_of d = ["0"%char].
Proof.
  assert (Z : forall d u, nzhead d <> D0 u) by (intros d0; induction d0; intros u E; cbn in E; try discriminate; eapply IHd0; eauto).
  intros N H. destruct d; try discriminate. cbn in N. unfold unorm in N. cbn [nzhead] in N.
  destruct (nzhead d) eqn:E; try discriminate.
  - injection N as <-. reflexivity.
  - elim (Z d u E).
Qed.

Lemma number_pad k ds : number (repeat "0"%char k ++ ds) = number ds.
Proof. induction k; cbn [repeat app]; [reflexivity|]. rewrite number_cons, IHk. reflexivity. Qed.

Lemma dec4_four n : four_digits n (dec4 n).
Proof.
  destruct (dec_digits n) as [d [E [Hn [V N]]]]. unfold dec4, four_digits. rewrite E.
  repeat split.
  - apply Forall_app. split; [|apply digits_digit]. apply Forall_forall. intros c Hc. apply repeat_spec in Hc. subst.
    unfold digit. vm_compute. lia.
  - rewrite number_pad, number_digits. exact V.
  - rewrite app_length, repeat_length. lia.
  - rewrite app_length, repeat_length. intros L.
    replace (4 - List.length (digits_of d)) with 0 by lia. cbn [repeat app].
    intros H. apply (digits_unorm_head d N) in H. rewrite H in L. cbn in L. lia.
Qed.

Lemma number_bound ds : Forall digit ds -> number ds < 10 ^ List.length ds.
Proof.
  induction 1 as [|c ds Hc _ IH]; [cbn; lia|]. rewrite number_cons. cbn [List.length Nat.pow]. unfold digit in Hc. nia.
Qed.
Lemma number_lower c ds : digit c -> c <> "0"%char -> 10 ^ List.length ds <= number (c :: ds).
Proof.
  intros Hc Hz. rewrite number_cons. unfold digit in Hc.
  assert (nat_of_ascii c <> 48). { intros E. apply Hz. rewrite <- (ascii_nat_embedding c), E. reflexivity. }
  nia.
Qed.
Lemma number_inj ds : forall es, Forall digit ds -> Forall digit es -> List.length ds = List.length es ->
  number ds = number es -> ds = es.
Proof.
  induction ds as [|c ds IH]; intros [|x es] D E L N; try discriminate; [reflexivity|].
  inversion D; inversion E; subst. cbn in L. assert (L' : List.length ds = List.length es) by lia.
  rewrite !number_cons, L' in N. pose proof (number_bound ds ltac:(assumption)) as B1. pose proof (number_bound es ltac:(assumption)) as B2.
  rewrite L' in B1. unfold digit in *.
  assert (nat_of_ascii c - 48 = nat_of_ascii x - 48) as Hc.
  { set (p := 10 ^ List.length es) in *. set (a := nat_of_ascii c - 48) in *. set (b := nat_of_ascii x - 48) in *.
    destruct (Nat.lt_trichotomy a b) as [H|[H|H]]; [|exact H|]; nia. }
  assert (nat_of_ascii c = nat_of_ascii x) as Hc' by lia.
  f_equal; [rewrite <- (ascii_nat_embedding c), Hc', ascii_nat_embedding; reflexivity|].
  apply IH; auto. rewrite Hc in N. lia.
Qed.

(** The four-digit name determines the number and conversely. *)
Lemma four_digits_unique i ds ds' : four_digits i ds -> four_digits i ds' -> ds = ds'.
Proof.
  intros (D & N & L & Z) (D' & N' & L' & Z').
  assert (List.length ds = List.length ds') as E.
  2: { apply number_inj; auto. congruence. }
  assert (A : forall xs ys, Forall digit xs -> Forall digit ys -> number xs = number ys -> 4 <= List.length xs -> 4 <= List.length ys ->
     (4 < List.length ys -> hd_error ys <> Some "0"%char) -> List.length ys <= List.length xs).
  { intros xs ys Dx Dy E Lx Ly Zy. destruct (le_lt_dec (List.length ys) (List.length xs)) as [|Lt]; [assumption|].
    exfalso. destruct ys as [|y ys]; [cbn in *; lia|]. inversion Dy; subst.
    assert (y <> "0"%char) as Hy. { intros ->. apply Zy; [cbn in *; lia|reflexivity]. }
    pose proof (number_lower y ys ltac:(assumption) Hy). pose proof (number_bound xs Dx).
    assert (10 ^ List.length xs <= 10 ^ List.length ys) by (apply Nat.pow_le_mono_r; cbn in *; lia). lia. }
  apply Nat.le_antisymm; apply A; auto; congruence.
Qed.

(** * Worlds *)
Lemma files_logf m w : w_files (logf m w) = w_files w.
Proof. unfold w_files, logf. rewrite flat_map_app. apply app_nil_r. Qed.
Lemma log_logf m w : w_log (logf m w) = w_log w ++ [m].
Proof. unfold w_log, logf. rewrite flat_map_app. reflexivity. Qed.
Lemma files_write p c w : w_files (write_file p c w) = w_files w ++ [(p, c)].
Proof. unfold w_files, write_file. rewrite flat_map_app. reflexivity. Qed.
Lemma log_write p c w : w_log (write_file p c w) = w_log w.
Proof. unfold w_log, write_file. rewrite flat_map_app. apply app_nil_r. Qed.

(** * Loading *)
Definition bare_fields (s : sexpr) : bool :=
  negb (is_nonempty (s_binding s)) && negb (is_nonempty (s_type s)) && negb (is_some (s_aux s)) &&
  negb (is_some (s_auxint s)) && negb (s_ellipsis s) && negb (s_trailing s).

Lemma bare_false (p : sexpr -> bool) ss : existsb p ss = false <-> forall s, In s ss -> p s = false.
Proof.
  split.
  - intros H s Hs. destruct (p s) eqn:E; [|reflexivity]. rewrite <- H. symmetry. apply existsb_exists. eauto.
  - intros H. apply Bool.not_true_is_false. intros E. apply existsb_exists in E. destruct E as [s [Hs E]]. rewrite H in E by exact Hs. discriminate.
Qed.

Lemma nonempty_false t : is_nonempty t = false <-> t = [].
Proof. destruct t; cbn; split; congruence. Qed.
Lemma is_some_false {A} (o : option A) : is_some o = false <-> o = None.
Proof. destruct o; cbn; split; congruence. Qed.

Lemma not_simple_spec r : proper_rule r -> exists b, not_simple r = Ok b /\ (b = false <-> simple_rule r).
Proof.
  intros Hp. pose proof (proper_nil_free r Hp) as Hn.
  unfold not_simple, HasBinding, HasType, HasAux, HasAuxInt, HasEllipsis, HasTrailing. cbn [any_of].
  assert (S : simple_rule r <-> r_cond r = None /\ r_block r = [] /\
     existsb (fun s => is_nonempty (s_binding s)) (rule_sexprs r) = false /\
     existsb (fun s => is_nonempty (s_type s)) (rule_sexprs r) = false /\
     existsb (fun s => is_some (s_aux s)) (rule_sexprs r) = false /\
     existsb (fun s => is_some (s_auxint s)) (rule_sexprs r) = false /\
     existsb s_ellipsis (rule_sexprs r) = false /\ existsb s_trailing (rule_sexprs r) = false).
  { rewrite !bare_false. unfold simple_rule, bare. split.
    - intros (C & B & H). repeat split; auto; intros s Hs; apply occurs_sexpr_rule in Hs; specialize (H s Hs);
        destruct H as (H1 & H2 & H3 & H4 & H5 & H6); rewrite ?H1, ?H2, ?H3, ?H4, ?H5, ?H6; reflexivity.
    - intros (C & B & H1 & H2 & H3 & H4 & H5 & H6). split; [exact C|]. split; [exact B|].
      intros s Hs. apply occurs_sexpr_rule in Hs.
      specialize (H1 s Hs). specialize (H2 s Hs). specialize (H3 s Hs). specialize (H4 s Hs). specialize (H5 s Hs). specialize (H6 s Hs).
      apply nonempty_false in H1, H2. apply is_some_false in H3, H4. auto 8. }
  setoid_rewrite S. clear S. rewrite !contains_sexprs by exact Hn. cbn [bind].
  setoid_rewrite <- (is_some_false (r_cond r)). setoid_rewrite <- (nonempty_false (r_block r)).
  destruct (is_some (r_cond r)); [eexists; split; [reflexivity|intuition congruence]|].
  destruct (is_nonempty (r_block r)); [eexists; split; [reflexivity|intuition congruence]|].
  repeat match goal with |- context [existsb ?p ?l] => destruct (existsb p l); [eexists; split; [reflexivity|intuition congruence]|] end.
  eexists; split; [reflexivity|intuition].
Qed.

Lemma sifted_fun {A} (P : A -> Prop) l k k' : sifted P l k -> sifted P l k' -> k = k'.
Proof. intros H. revert k'. induction H; intros k' H'; inversion H'; subst; auto; try contradiction. f_equal. auto. Qed.

Lemma filter_sifted rs : Forall proper_rule rs -> exists k, filter_simple rs = Ok k /\ sifted simple_rule rs k.
Proof.
  induction 1 as [|r rs Hr _ [k [E S]]]; cbn [filter_simple]; [eexists; split; [reflexivity|constructor]|].
  destruct (not_simple_spec r Hr) as [b [-> Hb]]. rewrite E. cbn [bind].
  eexists. split; [reflexivity|]. destruct b.
  - apply sift_drop; [|exact S]. intros X. apply Hb in X. discriminate.
  - apply sift_keep; [apply Hb; reflexivity|exact S].
Qed.
Lemma sifted_incl {A} (P : A -> Prop) l k : sifted P l k -> forall a, In a k -> In a l /\ P a.
Proof.
  induction 1 as [|a l k Ha _ IH|a l k Ha _ IH]; intros x Hx; [contradiction|..].
  - destruct Hx as [<-|Hx]; [cbn; auto|]. destruct (IH x Hx). cbn; auto.
  - destruct (IH x Hx). cbn; auto.
Qed.

Definition good_rule (r : rule) : Prop := proper_rule r /\ rule_bad r = [].

Section Load.
  Variable parse_file : text -> res file.
  Hypothesis no_panic : forall n m, parse_file n <> Panic m.
  Hypothesis good : forall n f, parse_file n = Ok f -> Forall good_rule (f_rules f).

  (** Outcome of the parsing loop. *)
  Lemma parse_all_spec ns : forall w,
    w_files (fst (parse_all parse_file ns w)) = w_files w /\
    match snd (parse_all parse_file ns w) with
    | Ok rs => exists fs, Forall2 (fun n f => parse_file n = Ok f) ns fs /\ rs = flat_map f_rules fs
    | Err e => exists pre n post e', ns = pre ++ n :: post /\ Forall (fun n => exists f, parse_file n = Ok f) pre /\
                 parse_file n = Err e' /\ e = str "parse: " ++ e'
    | Panic _ => False
    end.
  Proof.
    induction ns as [|n ns IH]; intros w; cbn [parse_all].
    - cbn. split; [reflexivity|]. exists []. split; constructor.
    - destruct (parse_file n) as [f|e|m] eqn:E; [|cbn|elim (no_panic n m E)].
      + specialize (IH (logf (str "parsed " ++ dec (List.length (f_rules f)) ++ str " rules from " ++ n) w)).
        destruct (parse_all parse_file ns _) as [w' r] eqn:Er. cbn [fst snd] in *. destruct IH as [Hw IH].
        split; [rewrite files_logf in Hw; exact Hw|]. destruct r as [rs|e|m]; cbn [bind]; [|..|exact IH].
        * destruct IH as [fs [F ->]]. exists (f :: fs). split; [constructor; assumption|reflexivity].
        * destruct IH as [pre [x [post [e' [-> [F [Hx ->]]]]]]]. exists (n :: pre), x, post, e'.
          repeat split; auto. constructor; eauto.
      + split; [reflexivity|]. exists [], n, ns, e. repeat split; auto.
  Qed.

  Definition loaded (ns : list text) (k : list rule) : Prop :=
    exists fs, Forall2 (fun n f => parse_file n = Ok f) ns fs /\ sifted simple_rule (flat_map f_rules fs) k.

  Lemma loaded_good ns k : loaded ns k -> Forall good_rule k.
  Proof.
    intros [fs [F S]]. apply Forall_forall. intros r Hr. apply (sifted_incl _ _ _ S) in Hr. destruct Hr as [Hr _].
    apply in_flat_map in Hr. destruct Hr as [f [Hf Hr]].
    assert (exists n, parse_file n = Ok f) as [n E].
    { clear -F Hf. induction F; [contradiction|]. destruct Hf as [<-|Hf]; eauto. }
    pose proof (good n f E) as G. rewrite Forall_forall in G. auto.
  Qed.

  Lemma load_spec ns w :
    w_files (fst (load parse_file ns w)) = w_files w /\
    match snd (load parse_file ns w) with
    | Ok f => exists k, loaded ns k /\ Forall (fun r => uniform (rule_groups r)) k /\ f_rules f = flat_map instances k
    | Err e =>
        (exists pre n post e', ns = pre ++ n :: post /\ Forall (fun n => exists f, parse_file n = Ok f) pre /\
           parse_file n = Err e' /\ e = str "parse: " ++ e') \/
        (exists k pre r post m n, loaded ns k /\ k = pre ++ r :: post /\
           Forall (fun r => uniform (rule_groups r)) pre /\
           In m (rule_groups r) /\ In n (rule_groups r) /\ m <> n /\ e = clash m n)
    | Panic _ => False
    end.
  Proof.
    unfold load. destruct (parse_all_spec ns w) as [Hw Hp].
    destruct (parse_all parse_file ns w) as [w1 r]. cbn [fst snd] in Hw, Hp.
    destruct r as [rs|e|m]; [|cbn; auto|contradiction].
    destruct Hp as [fs [F ->]].
    assert (Hprop : Forall proper_rule (flat_map f_rules fs)).
    { apply Forall_forall. intros r Hr. apply in_flat_map in Hr. destruct Hr as [f [Hf Hr]].
      assert (exists n, parse_file n = Ok f) as [n E].
      { clear -F Hf. induction F; [contradiction|]. destruct Hf as [<-|Hf]; eauto. }
      pose proof (good n f E) as G. rewrite Forall_forall in G. apply G. exact Hr. }
    destruct (filter_sifted _ Hprop) as [k [-> S]].
    assert (L : loaded ns k) by (exists fs; auto).
    assert (Hk : Forall proper_rule k).
    { eapply Forall_impl; [|apply (loaded_good ns k L)]. intros r [H _]. exact H. }
    destruct (ExpandAlternates {| f_rules := k |}) as [[f [e|]]|e|m] eqn:X; cbn [fst snd].
    - split; [rewrite !files_logf; exact Hw|]. right.
      assert (expandrules k = Err e) as X'.
      { unfold ExpandAlternates in X. cbn [f_rules] in X. destruct (expandrules k); congruence. }
      destruct (expandrules_error k e Hk X') as [pre [r [post [m [n [-> [U [Hm [Hn [Hmn ->]]]]]]]]]].
      exists (pre ++ r :: post), pre, r, post, m, n. auto 10.
    - split; [rewrite !files_logf; exact Hw|]. apply ExpandAlternates_iff in X. cbn [f_rules] in X. destruct X as [U X].
      exists k. split; [exact L|]. split; [|exact X]. eapply Forall_impl; [|exact U]. intros r [_ H]. exact H.
    - unfold ExpandAlternates in X. destruct (expandrules _); discriminate.
    - exfalso. unfold ExpandAlternates in X. cbn [f_rules] in X. destruct (expandrules k) eqn:Y; try discriminate.
      exact (expandrules_no_panic k _ Hk Y).
  Qed.

  Lemma load_fun ns k k' : loaded ns k -> loaded ns k' -> k = k'.
  Proof.
    intros [fs [F S]] [fs' [F' S']]. assert (fs = fs') as <-.
    { clear S S'. revert fs' F'. induction F; intros fs' F'; inversion F'; subst; [reflexivity|].
      f_equal; [congruence|auto]. }
    eapply sifted_fun; eauto.
  Qed.
End Load.

(** The instances of a good simple rule are plain, simple and printable. *)
Lemma go_bad_inst i v : proper_value v -> value_bad v = [] -> value_bad (value_inst i v) = [].
Proof.
  induction v as [s IH|e|x|] using value_ind'; intros Hp; cbn [value_bad value_inst]; auto.
  apply proper_sexp in Hp. destruct Hp as [Ho Ha]. cbn [s_op s_auxint s_aux s_args].
  intros H. apply app_eq_nil in H. destruct H as [_ H]. apply app_eq_nil in H. destruct H as [H1 H].
  apply app_eq_nil in H. destruct H as [H2 H]. rewrite H1, H2.
  assert (op_bad (op_inst i (s_op s)) = []) as -> by (destruct (s_op s); [reflexivity..|contradiction]). cbn [app].
  clear -IH Ha H. induction IH as [|a l Hx _ IHl]; cbn; [reflexivity|]. inversion Ha; subst.
  cbn in H. apply app_eq_nil in H. destruct H. rewrite Hx, IHl; auto.
Qed.
Lemma good_inst i r : good_rule r -> rule_bad (rule_inst i r) = [].
Proof.
  intros [[Hm Hr] H]. unfold rule_bad in *. cbn. apply app_eq_nil in H. destruct H as [H1 H].
  apply app_eq_nil in H. destruct H as [H2 H3]. rewrite !go_bad_inst, H2; auto.
Qed.
Lemma simple_inst i r : simple_rule r -> simple_rule (rule_inst i r).
Proof.
  intros (C & B & H). repeat split; [exact C|exact B|..];
  intros; apply occurs_sexpr_rule in H0;
    pose proof (rule_sexprs_inst i r) as F;
    (assert (exists s0, In s0 (rule_sexprs r) /\ same_fields s0 s) as [s0 [Hs0 SF]];
     [clear -F H0; induction F; [contradiction|]; destruct H0 as [<-|H0]; [eexists; split; [left; reflexivity|assumption]|];
      destruct (IHF H0) as [s0 [? ?]]; exists s0; split; [right|]; assumption|]);
    apply occurs_sexpr_rule in Hs0; specialize (H s0 Hs0); unfold bare in H; unfold same_fields in SF;
    destruct SF as (F1 & F2 & F3 & F4 & F5 & F6); destruct H as (B1 & B2 & B3 & B4 & B5 & B6); congruence.
Qed.
