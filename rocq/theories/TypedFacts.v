(** Well-typed memory stays well typed, and what can go wrong in it. *)
From Verif Require Import Text GoAst Ast Printer Expand Heap HeapWalk HeapPrint SpecExpand SpecHeap SpecTyped TreeFacts ExpandFacts HeapFacts.
From Coq Require Import Arith Lia Bool.
Open Scope nat_scope.
Open Scope list_scope.
Notation view h := (@nth_error cell h).

(** With [strict] nothing makes an ast.OpcodeParts: so it is with the pass, not with the parser. *)
Section Strict.
Variable strict : bool.

Definition same_kind (g g' : nat -> option cell) (c c' : cell) : Prop :=
  match c, c' with
  | CSExpr _, CSExpr _ | CRule _, CRule _ | CFile _, CFile _ => True
  | CExpr _, CExpr _ => True
  | CParts p, CParts p' => strict = true -> p = p'
  | CArr l, CArr l' => List.length l = List.length l' /\ (Forall (value_word g) l -> Forall (value_word g') l') /\ (Forall (rule_word g) l -> Forall (rule_word g') l')
  | _, _ => False
  end.
Definition kinds (g g' : nat -> option cell) : Prop :=
  (forall a c, g a = Some c -> exists c', g' a = Some c' /\ same_kind g g' c c') /\ (strict = true -> forall a ps, g' a = Some (CParts ps) -> g a = Some (CParts ps)).

(** Pointers keep their types. *)
Definition points_alike (g g' : nat -> option cell) : Prop :=
  (forall a s, g a = Some (CSExpr s) -> exists s', g' a = Some (CSExpr s')) /\ (forall a s, g a = Some (CRule s) -> exists s', g' a = Some (CRule s')) /\
  (forall a s, g a = Some (CExpr s) -> exists s', g' a = Some (CExpr s')).
Lemma kinds_alike g g' : kinds g g' -> points_alike g g'.
Proof. intros [K _]. split; [|split]; intros a s E; destruct (K _ _ E) as ([] & E' & S); try contradiction; eauto. Qed.
Lemma expr_ptr_alike g g' p : points_alike g g' -> expr_ptr g p -> expr_ptr g' p.
Proof. intros (_ & _ & K) H a E. destruct (H a E) as [e G]. exact (K _ _ G). Qed.
Lemma value_alike g g' w : points_alike g g' -> value_word g w -> value_word g' w.
Proof. intros K. destruct w; cbn; auto; [|apply expr_ptr_alike; exact K]. intros H a E. destruct (H a E) as [s G]. exact (proj1 K _ _ G). Qed.
Lemma rule_alike g g' w : points_alike g g' -> rule_word g w -> rule_word g' w.
Proof. intros K. destruct w; cbn; auto. intros H a E. destruct (H a E) as [s G]. exact (proj1 (proj2 K) _ _ G). Qed.

Lemma kinds_refl g : kinds g g.
Proof. split; [|auto]. intros a c E. exists c. split; [exact E|]. destruct c; cbn; auto. Qed.
Lemma kinds_trans a b c : kinds a b -> kinds b c -> kinds a c.
Proof.
  intros [A A'] [B B']. split; [|auto]. intros p x E. destruct (A _ _ E) as (y & E1 & S1). destruct (B _ _ E1) as (z & E2 & S2). exists z. split; [exact E2|].
  destruct x, y; try contradiction; destruct z; try contradiction; cbn in *; auto; [|intros St; rewrite (S1 St); exact (S2 St)]. destruct S1 as (L & F & G), S2 as (L' & F' & G'). split; [congruence|]. split; auto.
Qed.
(** The two sorts of arrays. *)
Definition sort_word (rules : bool) (g : nat -> option cell) : word -> Prop := if rules then rule_word g else value_word g.
Lemma sort_alike b g g' w : points_alike g g' -> sort_word b g w -> sort_word b g' w.
Proof. destruct b; [apply rule_alike|apply value_alike]. Qed.
Lemma sort_mono b g g' w : kinds g g' -> sort_word b g w -> sort_word b g' w.
Proof. intros K. apply sort_alike, kinds_alike, K. Qed.
Lemma value_mono g g' w : kinds g g' -> value_word g w -> value_word g' w. Proof. apply (sort_mono false). Qed.
Lemma sorts_mono b g g' l : kinds g g' -> Forall (sort_word b g) l -> Forall (sort_word b g') l.
Proof. intros K. apply Forall_impl. intros w. apply sort_mono, K. Qed.
Notation vals g := (sort_word false g).
Notation ruls g := (sort_word true g).
Notation slice_s b g sl := (slice_of g (sort_word b g) sl).
Lemma slice_mono b g g' sl : kinds g g' -> slice_s b g sl -> slice_s b g' sl.
Proof.
  intros K [L [Z|(l & E & B & F)]]; (split; [exact L|]); [left; exact Z|right]. destruct (proj1 K _ _ E) as ([| | | |l'|] & E' & S); try contradiction. destruct S as (Len & Fv & Fr).
  exists l'. split; [exact E'|]. split; [lia|]. destruct b; cbn; auto.
Qed.
Lemma typed_mono g g' c : kinds g g' -> typed_cell g c -> typed_cell g' c.
Proof.
  intros K. pose proof (kinds_alike _ _ K) as A. destruct c as [s|e|r|sl|l|ps]; cbn; auto.
  - intros (O & X & Y & Z). split; [|split; [eapply expr_ptr_alike; eauto|split; [eapply expr_ptr_alike; eauto|exact (slice_mono false _ _ _ K Z)]]].
    intros a E. destruct (O a E) as [ps G]. destruct (proj1 K _ _ G) as ([] & G' & S); try contradiction. eauto.
  - intros (X & Y & Z). split; [|split]; first [eapply value_alike; eassumption|eapply expr_ptr_alike; eassumption].
  - exact (slice_mono true _ _ _ K).
Qed.
Definition is_parts (c : cell) : Prop := match c with CParts _ => True | _ => False end.
Lemma kinds_alloc h c : (strict = true -> ~ is_parts c) -> kinds (view h) (view (h ++ [c])).
Proof.
  intros N. assert (S : sub (view h) (view (h ++ [c]))) by apply sub_alloc, sub_refl. split.
  - intros a x E. exists x. split; [exact (S _ _ E)|]. assert (A : points_alike (view h) (view (h ++ [c]))) by (split; [|split]; intros b y Y; exists y; exact (S _ _ Y)).
    destruct x; cbn; auto. split; [reflexivity|]. split; apply Forall_impl; intros w; [apply value_alike|apply rule_alike]; exact A.
  - intros St a ps E. destruct (Nat.lt_ge_cases a (List.length h)) as [L|L]; [rewrite nth_error_app1 in E by exact L; exact E|]. rewrite nth_error_app2 in E by exact L.
    destruct (a - List.length h) as [|[|]]; cbn in E; try discriminate. injection E as ->. destruct (N St). exact I.
Qed.
Lemma typed_alloc h c : (strict = true -> ~ is_parts c) -> typed (view h) -> typed_cell (view h) c -> typed (view (h ++ [c])).
Proof.
  intros N T C a x E. pose proof (kinds_alloc h c N) as K. destruct (Nat.lt_ge_cases a (List.length h)) as [L|L]; [rewrite nth_error_app1 in E by exact L; eapply typed_mono; eauto|].
  rewrite nth_error_app2 in E by exact L. destruct (a - List.length h) as [|[|]]; cbn in E; try discriminate. injection E as ->. eapply typed_mono; eauto.
Qed.
Lemma kinds_put h p c c' : nth_error h p = Some c -> same_kind (view h) (view h) c c' -> kinds (view h) (view (put p c' h)).
Proof.
  intros E S. assert (L : p < List.length h) by (apply nth_error_Some; congruence).
  assert (A : points_alike (view h) (view (put p c' h))).
  { split; [|split]; intros a s G; rewrite put_spec by exact L; destruct (Nat.eqb_spec a p) as [->|]; eauto; rewrite E in G; injection G as ->; destruct c'; try contradiction; eauto. }
  split.
  - intros a x G. rewrite put_spec by exact L. destruct (Nat.eqb_spec a p) as [->|N].
    + rewrite E in G. injection G as ->. exists c'. split; [reflexivity|]. destruct x, c'; try contradiction; cbn in *; auto. destruct S as (Q & F & R). split; [exact Q|].
      split; intros H; (eapply Forall_impl; [|]); [intros w; apply value_alike; exact A|auto|intros w; apply rule_alike; exact A|auto].
    + exists x. split; [exact G|]. destruct x; cbn; auto. split; [reflexivity|]. split; apply Forall_impl; intros w; [apply value_alike|apply rule_alike]; exact A.
  - intros St a ps G. rewrite put_spec in G by exact L. destruct (Nat.eqb_spec a p) as [->|]; [|exact G]. injection G as ->. destruct c; try contradiction. cbn in S. rewrite <- (S St). exact E.
Qed.
Lemma typed_put h p c c' : nth_error h p = Some c -> same_kind (view h) (view h) c c' -> typed (view h) -> typed_cell (view h) c' -> typed (view (put p c' h)).
Proof.
  intros E S T C a x G. pose proof (kinds_put _ _ _ _ E S) as K. rewrite put_spec in G by (apply nth_error_Some; congruence). destruct (a =? p); [injection G as <-|apply T in G]; eapply typed_mono; eauto.
Qed.

(** ** What a program may do *)
Definition fault (g : nat -> option cell) (m : text) : Prop := nil_or_overflow m \/ opcode_panic g m.
Definition good {A} (Q : (nat -> option cell) -> A -> Prop) (m : M A) (h : heap) : Prop :=
  typed (view h) -> forall h' r, m h = (h', r) -> typed (view h') /\ kinds (view h) (view h') /\
    match r with Ok a => Q (view h') a | Err _ => True | Panic x => fault (view h') x end.
Lemma good_bind {A B} (m : M A) (k : A -> M B) P Q h : good P m h -> (forall a h1, kinds (view h) (view h1) -> P (view h1) a -> good Q (k a) h1) -> good Q (mbind m k) h.
Proof.
  intros G1 G2 T h' r E. rewrite run_bind in E. destruct (m h) as [h1 r1] eqn:E1. destruct (G1 T _ _ E1) as (T1 & K1 & R1). destruct r1 as [a|e|x]; [|injection E as <- <-; auto..].
  destruct (G2 a h1 K1 R1 T1 _ _ E) as (T2 & K2 & R2). split; [exact T2|]. split; [exact (kinds_trans _ _ _ K1 K2)|exact R2].
Qed.
Lemma good_ret {A} (a : A) (Q : (nat -> option cell) -> A -> Prop) h : Q (view h) a -> good Q (ret a) h.
Proof. intros H T h' r [= <- <-]. auto using kinds_refl. Qed.
Lemma good_lift {A} (x : res A) (Q : (nat -> option cell) -> A -> Prop) h : (forall a, x = Ok a -> Q (view h) a) -> (forall m, x = Panic m -> fault (view h) m) -> good Q (lift x) h.
Proof. intros H F T h' r [= <- <-]. split; [exact T|]. split; [apply kinds_refl|]. destruct x; auto. Qed.
Lemma good_panics {A} m (Q : (nat -> option cell) -> A -> Prop) h : fault (view h) m -> good Q (panics m) h.
Proof. intros H T h' r [= <- <-]. auto using kinds_refl. Qed.
Lemma good_fails {A} m (Q : (nat -> option cell) -> A -> Prop) h : good Q (fails m) h.
Proof. intros T h' r [= <- <-]. auto using kinds_refl. Qed.
Lemma good_run {A} (m : M A) (Q : (nat -> option cell) -> A -> Prop) h a : m h = (h, Ok a) -> Q (view h) a -> good Q m h.
Proof. intros E H T h' r X. rewrite E in X. injection X as <- <-. auto using kinds_refl. Qed.
Lemma good_weak {A} (m : M A) (P Q : (nat -> option cell) -> A -> Prop) h : good P m h -> (forall g a, P g a -> Q g a) -> good Q m h.
Proof. intros G H T h' r E. destruct (G T _ _ E) as (T' & K & R). split; [exact T'|]. split; [exact K|]. destruct r; auto. Qed.
Lemma good_typed {A} (m : M A) Q h : (typed (view h) -> good Q m h) -> good Q m h.
Proof. intros G T. exact (G T T). Qed.
Lemma good_alloc c h : (strict = true -> ~ is_parts c) -> typed_cell (view h) c -> good (fun g a => g a = Some c) (alloc c) h.
Proof.
  intros N C T h' r [= <- <-]. split; [apply typed_alloc; assumption|]. split; [apply kinds_alloc; exact N|]. rewrite nth_error_app2, Nat.sub_diag by auto. reflexivity.
Qed.
Lemma good_store p c c' h : nth_error h p = Some c -> same_kind (view h) (view h) c c' -> typed_cell (view h) c' -> good (fun g _ => g p = Some c') (store p c') h.
Proof.
  intros E S C T h' r X. assert (L : p < List.length h) by (apply nth_error_Some; congruence). rewrite store_ok in X by exact L. injection X as <- <-.
  split; [eapply typed_put; eauto|]. split; [eapply kinds_put; eauto|]. rewrite put_spec, Nat.eqb_refl by exact L. reflexivity.
Qed.

(** ** Slices *)
Lemma get_run_ok p h c : nth_error h p = Some c -> get p h = (h, Ok c).
Proof. intros E. rewrite get_run, E. reflexivity. Qed.
Lemma sexpr_run p h s : nth_error h p = Some (CSExpr s) -> get_sexpr p h = (h, Ok s).
Proof. intros E. unfold get_sexpr. rewrite run_bind, get_run, E. reflexivity. Qed.
Lemma rule_run p h s : nth_error h p = Some (CRule s) -> get_rule p h = (h, Ok s).
Proof. intros E. unfold get_rule. rewrite run_bind, get_run, E. reflexivity. Qed.
Lemma arr_run p h s : nth_error h p = Some (CArr s) -> get_arr p h = (h, Ok s).
Proof. intros E. unfold get_arr. rewrite run_bind, get_run, E. reflexivity. Qed.
Lemma at_run (P : word -> Prop) h sl i : slice_of (view h) P sl -> i < sl_len sl -> exists w, at_ sl i h = (h, Ok w) /\ P w.
Proof.
  intros [L [Z|(l & E & B & F)]] Hi; [lia|]. unfold at_. rewrite (proj2 (Nat.ltb_lt _ _)) by exact Hi. rewrite run_bind, (arr_run _ _ _ E).
  destruct (nth_error l (sl_off sl + i)) as [w|] eqn:N; [|apply nth_error_None in N; lia]. exists w. split; [reflexivity|]. rewrite Forall_forall in F. apply F. eapply nth_error_In; eauto.
Qed.
Lemma elements_run (P : word -> Prop) h sl : slice_of (view h) P sl -> exists ws, elements sl h = (h, Ok ws) /\ Forall P ws /\ List.length ws = sl_len sl.
Proof.
  intros [L S]. unfold elements. destruct (Nat.eqb_spec (sl_len sl) 0) as [Z|Z]; [exists []; auto|]. destruct S as [Z'|(l & E & B & F)]; [lia|]. rewrite run_bind, (arr_run _ _ _ E).
  eexists. split; [reflexivity|]. split; [|rewrite firstn_length, skipn_length; lia]. apply Forall_forall. intros x Hx. rewrite Forall_forall in F. apply F.
  rewrite <- (firstn_skipn (sl_off sl) l). apply in_app_iff. right. rewrite <- (firstn_skipn (sl_len sl) (skipn (sl_off sl) l)). apply in_app_iff. left. exact Hx.
Qed.
Lemma nil_typed b g : slice_s b g nil_slice. Proof. split; [apply le_n|left; reflexivity]. Qed.
Lemma sort_zero b g ws : Forall (sort_word b g) ws -> ws <> [] -> sort_word b g (zero ws).
Proof. intros F N. destruct F as [|w ws P F]; [contradiction|]. destruct b, w; cbn in *; try contradiction; auto; discriminate. Qed.
Lemma sorts_apart g w : value_word g w -> rule_word g w -> False.
Proof. destruct w; cbn; auto. Qed.

Section Code.
  Variable spare : nat -> nat -> nat.
  Lemma good_append b h sl ws : slice_s b (view h) sl -> Forall (sort_word b (view h)) ws ->
    good (fun g s => slice_s b g s /\ sl_len s = sl_len sl + List.length ws) (append spare sl ws) h.
  Proof.
    intros Sl F. unfold append. destruct (Nat.leb_spec (sl_len sl + List.length ws) (sl_cap sl)) as [Le|Le].
    - destruct (Nat.eqb_spec (List.length ws) 0) as [Z|Z]; [apply good_ret; split; [exact Sl|lia]|]. pose proof Sl as [L [Z'|(l & E & B & Fl)]]; [lia|].
      eapply good_bind; [apply (good_run _ (fun g x => g = view h /\ x = l) h l); [apply arr_run; exact E|auto]|]. intros l' h1 K1 [Eg ->].
      assert (E1 : nth_error h1 (sl_arr sl) = Some (CArr l)) by (rewrite Eg; exact E).
      assert (Fo : Forall (sort_word b (view h)) (overwrite l (sl_off sl + sl_len sl) ws)).
      { unfold overwrite. apply Forall_app. split; [|apply Forall_app; split; [exact F|]]; apply Forall_forall; intros x Hx; rewrite Forall_forall in Fl; apply Fl.
        - rewrite <- (firstn_skipn (sl_off sl + sl_len sl) l). apply in_app_iff. auto.
        - rewrite <- (firstn_skipn (sl_off sl + sl_len sl + List.length ws) l). apply in_app_iff. auto. }
      assert (Lo : List.length (overwrite l (sl_off sl + sl_len sl) ws) = List.length l).
      { unfold overwrite. rewrite !app_length, firstn_length, skipn_length. lia. }
      eapply good_bind; [eapply (good_store _ _ _ _ E1)|].
      + cbn [same_kind]. split; [symmetry; exact Lo|]. rewrite Eg. destruct l as [|x l]; [cbn in B; lia|].
        destruct b; cbn [sort_word] in *; (split; intros Q; [|]); auto; exfalso; inversion Q; inversion Fl; subst; eapply sorts_apart; eauto.
      + exact I.
      + intros ? h2 K2 E2. apply good_ret. split; [|reflexivity]. split; [cbn; lia|]. right. cbn [sl_arr sl_off sl_cap]. exists (overwrite l (sl_off sl + sl_len sl) ws). split; [exact E2|].
        split; [rewrite Lo; lia|]. eapply sorts_mono; [exact K2|]. rewrite Eg. exact Fo.
    - assert (Nw : ws <> []) by (intros ->; destruct Sl as [L _]; cbn in Le; lia).
      destruct (elements_run _ _ _ Sl) as (old & Eo & Fo & Lo). eapply good_bind; [apply (good_run _ (fun g x => g = view h /\ x = old) h old Eo); auto|]. intros o h1 K1 [Eg ->].
      cbn zeta. eapply good_bind; [apply good_alloc; [intros _ []|exact I]|]. intros a h2 K2 Ea. apply good_ret. split; [|reflexivity]. split; [cbn; lia|]. right. cbn [sl_arr sl_off sl_cap].
      eexists. split; [exact Ea|]. split; [rewrite !app_length, repeat_length; lia|]. eapply sorts_mono; [exact (kinds_trans _ _ _ K1 K2)|].
      apply Forall_app. split; [exact Fo|]. apply Forall_app. split; [exact F|]. apply Forall_forall. intros x Hx. apply repeat_spec in Hx. subst x. apply sort_zero; assumption.
  Qed.
  Lemma good_literal b h ws : Forall (sort_word b (view h)) ws -> good (fun g s => slice_s b g s /\ sl_len s = List.length ws) (literal ws) h.
  Proof.
    intros F. eapply good_bind; [apply good_alloc; [intros _ []|exact I]|]. intros a h1 K Ea. apply good_ret. split; [|reflexivity]. split; [cbn; lia|]. right. exists ws. cbn. split; [exact Ea|]. split; [lia|].
    eapply sorts_mono; eauto.
  Qed.
  Lemma good_make b h z n : sort_word b (view h) z -> good (fun g s => slice_s b g s /\ sl_len s = 0) (make z n) h.
  Proof.
    intros F. eapply good_bind; [apply good_alloc; [intros _ []|exact I]|]. intros a h1 K Ea. apply good_ret. split; [|reflexivity]. split; [cbn; lia|]. right. eexists. cbn. split; [exact Ea|]. split; [rewrite repeat_length; lia|].
    apply Forall_forall. intros x Hx. apply repeat_spec in Hx. subst. eapply sort_mono; eauto.
  Qed.

  (** ** The pass *)
  Lemma good_expandop h s p : nth_error h p = Some (CSExpr s) -> good (fun g o => True) (h_expandop (h_op s)) h.
  Proof.
    intros E. apply good_typed. intros T. pose proof (T _ _ E) as (O & _). destruct (h_op s) as [c|a|] eqn:Eo; cbn [h_expandop].
    - apply good_lift; [auto|discriminate].
    - destruct (O a eq_refl) as [ps G]. eapply good_bind; [apply (good_run _ (fun g x => g = view h /\ x = CParts ps) h _ (get_run_ok _ _ _ G)); auto|]. intros c h1 K [Eg ->]. apply good_lift; [auto|].
      intros m Em. right. exists a, ps. split; [rewrite Eg; exact G|]. split; [eapply expandop_panic; exact Em|exact Em].
    - apply good_lift; [auto|discriminate].
  Qed.
  Definition fits (n : nat) (g : nat -> option cell) (sl : slice) : Prop := slice_s false g sl /\ (sl_len sl = 1 \/ sl_len sl = n).
  Lemma good_args_loop expand args : (forall h w, vals (view h) w -> good (fun g s => slice_s false g s) (expand w) h) ->
    forall k j n h, slice_s false (view h) args -> j + k = sl_len args ->
      good (fun g r => (n = 1 \/ n = fst r) /\ Forall (fits (fst r) g) (snd r)) (h_args_loop expand args k j n) h.
  Proof.
    intros He. induction k as [|k IH]; intros j n h Sl Ej; cbn [h_args_loop]; [apply good_ret; split; [right; reflexivity|constructor]|].
    assert (Lj : j < sl_len args) by lia. destruct (at_run _ h args j Sl Lj) as (w & Ew & Vw). eapply good_bind; [apply (good_run _ (fun g x => g = view h /\ x = w) h w Ew); auto|]. intros w' h1 K1 [Eg ->].
    eapply good_bind; [apply He; rewrite Eg; exact Vw|]. intros ea h2 K2 Sa.
    eapply good_bind; [apply (good_lift _ (fun _ c => (n = 1 \/ n = c) /\ (sl_len ea = 1 \/ sl_len ea = c)))|].
    - intros c Ec. apply resolvecounts_ok in Ec. tauto.
    - intros m Em. destruct (resolvecounts_no_panic _ _ _ Em).
    - intros c h3 K3 [Hn Ha]. pose proof (kinds_trans _ _ _ K1 (kinds_trans _ _ _ K2 K3)) as K13.
      eapply good_bind; [apply (IH (S j) c h3); [eapply slice_mono; [exact K13|exact Sl]|lia]|]. intros [r rs] h4 K4 [Hc F]. cbn [fst snd] in *. apply good_ret. cbn [fst snd]. split; [intuition congruence|].
      constructor; [|exact F]. split; [eapply slice_mono; [exact (kinds_trans _ _ _ K3 K4)|exact Sa]|intuition congruence].
  Qed.
  Lemma idx_lt i n m : i < n -> m = 1 \/ m = n -> idx i m < m.
  Proof. intros L [->| ->]; unfold idx; [cbn; lia|]. destruct (Nat.eqb_spec n 1); lia. Qed.
  Lemma good_pick expargs i n : forall h args, i < n -> Forall (fits n (view h)) expargs -> slice_s false (view h) args -> good (fun g s => slice_s false g s) (pick_args spare expargs i args) h.
  Proof.
    induction expargs as [|alts rest IH]; intros h args Li F Sl; cbn [pick_args]; [apply good_ret; exact Sl|]. apply Forall_cons_iff in F. destruct F as [[Sa La] F].
    destruct (at_run _ h alts _ Sa (idx_lt _ _ _ Li La)) as (w & Ew & Vw). eapply good_bind; [apply (good_run _ (fun g x => g = view h /\ x = w) h w Ew); auto|]. intros w' h1 K1 [Eg ->].
    eapply good_bind; [apply (good_append false); [rewrite Eg; exact Sl|rewrite Eg; constructor; [exact Vw|constructor]]|]. intros args' h2 K2 [S2 _]. apply IH; [exact Li| |exact S2].
    eapply Forall_impl; [|exact F]. intros a [X Y]. split; [|exact Y]. eapply slice_mono; [exact (kinds_trans _ _ _ K1 K2)|exact X].
  Qed.
  Lemma kinds_sexpr g g' p : kinds g g' -> (exists s, g p = Some (CSExpr s)) -> exists s, g' p = Some (CSExpr s).
  Proof. intros K [s E]. exact (proj1 (kinds_alike _ _ K) _ _ E). Qed.
  Lemma kinds_rule g g' p : kinds g g' -> (exists s, g p = Some (CRule s)) -> exists s, g' p = Some (CRule s).
  Proof. intros K [s E]. exact (proj1 (proj2 (kinds_alike _ _ K)) _ _ E). Qed.
  Lemma fits_mono n g g' l : kinds g g' -> Forall (fits n g) l -> Forall (fits n g') l.
  Proof. intros K. apply Forall_impl. intros a [X Y]. split; [eapply slice_mono; eauto|exact Y]. Qed.
  Lemma good_alternates p opcodes expargs n : List.length opcodes = 1 \/ List.length opcodes = n ->
    forall k i h vs, i + k = n -> (exists s, nth_error h p = Some (CSExpr s)) -> Forall (fits n (view h)) expargs -> slice_s false (view h) vs ->
      good (fun g s => slice_s false g s) (alternates spare p opcodes expargs k i vs) h.
  Proof.
    intros Lo. induction k as [|k IH]; intros i h vs Ei [s Es] F Sl; cbn [alternates]; [apply good_ret; exact Sl|].
    eapply good_bind; [apply (good_run _ (fun g x => g = view h /\ x = s) h s (sexpr_run _ _ _ Es)); auto|]. intros s' h1 K1 [Eg ->]. apply good_typed. intros T1.
    assert (Es1 : nth_error h1 p = Some (CSExpr s)) by (rewrite Eg; exact Es).
    eapply good_bind; [apply good_alloc; [intros _ []|exact (T1 _ _ Es1)]|]. intros v h2 K2 Ev.
    eapply good_bind; [apply (good_lift _ (fun g _ => g = view h2))|]; [reflexivity| |].
    { intros m Em. unfold index in Em. destruct (nth_error opcodes (idx i (List.length opcodes))) eqn:X; [discriminate|]. apply nth_error_None in X. assert (Li : i < n) by lia. pose proof (idx_lt i n _ Li Lo). lia. }
    intros o h3 K3 Eg3. assert (Ev3 : nth_error h3 v = Some (CSExpr s)) by (rewrite Eg3; exact Ev).
    eapply good_bind; [apply (good_run _ (fun g x => g = view h3 /\ x = s) h3 s (sexpr_run _ _ _ Ev3)); auto|]. intros s' h4 K4 [Eg4 ->]. assert (Ev4 : nth_error h4 v = Some (CSExpr s)) by (rewrite Eg4; exact Ev3). apply good_typed. intros T4.
    eapply good_bind; [apply (good_store _ _ _ _ Ev4); [exact I|]|].
    { pose proof (T4 _ _ Ev4) as (_ & X & Y & Z). cbn. split; [discriminate|]. auto. }
    intros ? h5 K5 Ev5. pose proof (kinds_trans _ _ _ K1 (kinds_trans _ _ _ K2 (kinds_trans _ _ _ K3 (kinds_trans _ _ _ K4 K5)))) as K15.
    eapply good_bind; [apply (good_pick expargs i n); [lia|eapply fits_mono; eauto|apply nil_typed]|]. intros args h6 K6 Sa.
    destruct (kinds_sexpr _ _ v K6 (ex_intro (fun x => nth_error h5 v = Some (CSExpr x)) _ Ev5)) as [s6 Ev6].
    eapply good_bind; [apply (good_run _ (fun g x => g = view h6 /\ x = s6) h6 s6 (sexpr_run _ _ _ Ev6)); auto|]. intros s' h7 K7 [Eg7 ->]. assert (Ev7 : nth_error h7 v = Some (CSExpr s6)) by (rewrite Eg7; exact Ev6). apply good_typed. intros T7.
    eapply good_bind; [apply (good_store _ _ _ _ Ev7); [exact I|]|].
    { pose proof (T7 _ _ Ev7) as (X & Y & Z & _). cbn. split; [exact X|]. split; [exact Y|]. split; [exact Z|]. exact (slice_mono false _ _ _ K7 Sa). }
    intros ? h8 K8 Ev8. pose proof (kinds_trans _ _ _ K15 (kinds_trans _ _ _ K6 (kinds_trans _ _ _ K7 K8))) as K18.
    eapply good_bind; [apply (good_append false); [eapply slice_mono; [exact K18|exact Sl]|constructor; [intros ? [= <-]; eexists; exact Ev8|constructor]]|]. intros vs' h9 K9 [S9 _].
    pose proof (kinds_trans _ _ _ K18 K9) as K19. apply IH; [lia|eapply kinds_sexpr; [exact K19|eauto]|eapply fits_mono; eauto|exact S9].
  Qed.
  Lemma good_expandvalue fuel : forall h w, vals (view h) w -> good (fun g s => slice_s false g s) (h_expandvalue spare fuel w) h.
  Proof.
    induction fuel as [|fuel IH]; intros h w V; cbn [h_expandvalue]; [apply good_panics; left; right; reflexivity|].
    assert (Lit : forall w h, vals (view h) w -> good (fun g s => slice_s false g s) (literal [w]) h) by (intros x h' Vx; eapply good_weak; [apply (good_literal false); constructor; [exact Vx|constructor]|intros g a [X _]; exact X]).
    destruct w as [[p|]|x|x| |x]; try (apply Lit; exact V); [|apply good_panics; left; left; reflexivity|apply good_fails|destruct V].
    destruct (V p eq_refl) as [s Es]. eapply good_bind; [apply (good_run _ (fun g x => g = view h /\ x = s) h s (sexpr_run _ _ _ Es)); auto|]. intros s' h1 K1 [Eg ->].
    assert (Es1 : nth_error h1 p = Some (CSExpr s)) by (rewrite Eg; exact Es). apply good_typed. intros T1. pose proof (T1 _ _ Es1) as (_ & _ & _ & Sl).
    eapply good_bind; [apply (good_expandop h1 s p Es1)|]. intros opcodes h2 K2 ?.
    eapply good_bind; [apply (good_args_loop (h_expandvalue spare fuel) (h_args s) IH _ 0 (List.length opcodes) h2); [exact (slice_mono false _ _ _ K2 Sl)|reflexivity]|]. intros [n ex] h3 K3 [Hn F]. cbn [fst snd] in *.
    pose proof (kinds_trans _ _ _ K2 K3) as K23. destruct (kinds_sexpr _ _ p K23 (ex_intro _ _ Es1)) as [s3 Es3].
    destruct (n =? 1); [apply Lit; intros ? [= <-]; eauto|]. eapply good_bind; [apply (good_make false); exact I|]. intros vs h4 K4 [Sv _].
    apply (good_alternates p opcodes ex n Hn n 0); [reflexivity|eapply kinds_sexpr; [exact K4|eauto]|eapply fits_mono; eauto|exact Sv].
  Qed.
  Lemma good_new_rules p ms rs n : sl_len ms = 1 \/ sl_len ms = n -> sl_len rs = 1 \/ sl_len rs = n ->
    forall k i h rules, i + k = n -> (exists s, nth_error h p = Some (CRule s)) -> slice_s false (view h) ms -> slice_s false (view h) rs -> slice_s true (view h) rules ->
      good (fun g s => slice_s true g s) (new_rules spare p ms rs k i rules) h.
  Proof.
    intros Lm Lr. induction k as [|k IH]; intros i h rules Ei [c Ec] Sm Sr Sl; cbn [new_rules]; [apply good_ret; exact Sl|].
    assert (Li : i < n) by lia. destruct (at_run _ h ms _ Sm (idx_lt i n _ Li Lm)) as (m & Em & Vm). eapply good_bind; [apply (good_run _ (fun g x => g = view h /\ x = m) h m Em); auto|]. intros m' h1 K1 [E1 ->].
    assert (Ec1 : nth_error h1 p = Some (CRule c)) by (rewrite E1; exact Ec). eapply good_bind; [apply (good_run _ (fun g x => g = view h1 /\ x = c) h1 c (rule_run _ _ _ Ec1)); auto|]. intros c' h2 K2 [E2 ->].
    assert (Sr2 : slice_s false (view h2) rs) by (rewrite E2, E1; exact Sr).
    destruct (at_run _ h2 rs _ Sr2 (idx_lt i n _ Li Lr)) as (x & Ex & Vx). eapply good_bind; [apply (good_run _ (fun g y => g = view h2 /\ y = x) h2 x Ex); auto|]. intros x' h3 K3 [E3 ->].
    apply good_typed. intros T3. assert (Ec3 : nth_error h3 p = Some (CRule c)) by (rewrite E3, E2; exact Ec1). pose proof (T3 _ _ Ec3) as (_ & Hc & _).
    eapply good_bind; [apply good_alloc; [intros _ []|cbn; split; [rewrite E3, E2, E1; exact Vm|split; [exact Hc|rewrite E3; exact Vx]]]|]. intros q h4 K4 Eq.
    assert (K : kinds (view h) (view h4)) by (eapply kinds_trans; [exact K1|]; eapply kinds_trans; [exact K2|]; eapply kinds_trans; [exact K3|exact K4]).
    eapply good_bind; [apply (good_append true); [eapply slice_mono; [exact K|exact Sl]|constructor; [intros ? [= <-]; eexists; exact Eq|constructor]]|]. intros rules' h5 K5 [S5 _].
    pose proof (kinds_trans _ _ _ K K5) as K'. apply IH; [lia|eapply kinds_rule; [exact K'|eauto]|eapply slice_mono; eauto|eapply slice_mono; eauto|exact S5].
  Qed.
  Lemma good_expandrule fuel h r : ruls (view h) (WRule r) -> good (fun g s => slice_s true g s) (h_expandrule spare fuel r) h.
  Proof.
    intros V. destruct r as [p|]; cbn [h_expandrule]; [|apply good_panics; left; left; reflexivity]. destruct (V p eq_refl) as [c Ec].
    eapply good_bind; [apply (good_run _ (fun g x => g = view h /\ x = c) h c (rule_run _ _ _ Ec)); auto|]. intros c' h1 K1 [E1 ->]. assert (Ec1 : nth_error h1 p = Some (CRule c)) by (rewrite E1; exact Ec).
    apply good_typed. intros T1. pose proof (T1 _ _ Ec1) as (Hm & _ & _). eapply good_bind; [apply good_expandvalue; exact Hm|]. intros ms h2 K2 Sm.
    destruct (kinds_rule _ _ p K2 (ex_intro _ _ Ec1)) as [c2 Ec2]. eapply good_bind; [apply (good_run _ (fun g x => g = view h2 /\ x = c2) h2 c2 (rule_run _ _ _ Ec2)); auto|]. intros c' h3 K3 [E3 ->].
    assert (Ec3 : nth_error h3 p = Some (CRule c2)) by (rewrite E3; exact Ec2). apply good_typed. intros T3. pose proof (T3 _ _ Ec3) as (_ & _ & Hr).
    eapply good_bind; [apply good_expandvalue; exact Hr|]. intros rs h4 K4 Sr.
    eapply good_bind; [apply (good_lift _ (fun g n => g = view h4 /\ (sl_len ms = 1 \/ sl_len ms = n) /\ (sl_len rs = 1 \/ sl_len rs = n)))|].
    { intros n En. apply resolvecounts_ok in En. tauto. }
    { intros m Em. destruct (resolvecounts_no_panic _ _ _ Em). }
    intros n h5 K5 (E5 & Lm & Lr). pose proof (kinds_trans _ _ _ K3 (kinds_trans _ _ _ K4 K5)) as K35. destruct (kinds_rule _ _ p K35 (ex_intro _ _ Ec2)) as [c5 Ec5].
    destruct (n =? 1); [eapply good_weak; [apply (good_literal true); constructor; [intros ? [= <-]; eauto|constructor]|intros g a [X _]; exact X]|].
    eapply good_bind; [apply (good_make true); intros a; discriminate|]. intros rules h6 K6 [S6 _].
    apply (good_new_rules p ms rs n Lm Lr n 0); [reflexivity|eapply kinds_rule; [exact K6|eauto]| | |exact S6].
    - eapply slice_mono; [exact (kinds_trans _ _ _ K35 K6)|exact Sm]. - eapply slice_mono; [exact (kinds_trans _ _ _ K5 K6)|exact Sr].
  Qed.
  Lemma good_expandrules fuel rules : forall k j h exps, j + k = sl_len rules -> slice_s true (view h) rules -> slice_s true (view h) exps ->
    good (fun g s => slice_s true g s) (h_expandrules spare fuel rules k j exps) h.
  Proof.
    induction k as [|k IH]; intros j h exps Ej Sl Se; cbn [h_expandrules]; [apply good_ret; exact Se|].
    assert (Lj : j < sl_len rules) by lia. destruct (at_run _ h rules j Sl Lj) as (w & Ew & Vw). eapply good_bind; [apply (good_run _ (fun g x => g = view h /\ x = w) h w Ew); auto|]. intros w' h1 K1 [E1 ->].
    destruct w as [x|x|x| |r]; try (destruct Vw; fail). eapply good_bind; [apply good_expandrule; rewrite E1; exact Vw|]. intros ex h2 K2 Sx.
    destruct (elements_run _ _ _ Sx) as (ws & Es & Fs & _). eapply good_bind; [apply (good_run _ (fun g x => g = view h2 /\ x = ws) h2 ws Es); auto|]. intros ws' h3 K3 [E3 ->].
    pose proof (kinds_trans _ _ _ K1 (kinds_trans _ _ _ K2 K3)) as K13. eapply good_bind; [apply (good_append true); [eapply slice_mono; eauto|rewrite E3; exact Fs]|]. intros ex' h4 K4 [S4 _].
    apply IH; [lia|eapply slice_mono; [exact (kinds_trans _ _ _ K13 K4)|exact Sl]|exact S4].
  Qed.
  Lemma good_ExpandAlternates fuel f h : (forall a, f = Some a -> exists sl, nth_error h a = Some (CFile sl)) -> good (fun _ _ => True) (h_ExpandAlternates spare fuel f) h.
  Proof.
    intros Hf. destruct f as [f|]; cbn [h_ExpandAlternates]; [|apply good_panics; left; left; reflexivity]. destruct (Hf f eq_refl) as [sl Es].
    eapply good_bind; [apply (good_run _ (fun g x => g = view h /\ x = CFile sl) h _ (get_run_ok _ _ _ Es)); auto|]. intros c h1 K1 [E1 ->]. assert (Es1 : nth_error h1 f = Some (CFile sl)) by (rewrite E1; exact Es).
    apply good_typed. intros T1. pose proof (T1 _ _ Es1) as Sl. cbn in Sl. eapply good_bind; [apply (good_expandrules fuel sl _ 0); [reflexivity|exact Sl|apply nil_typed]|]. intros rs h2 K2 S2.
    destruct (proj1 K2 _ _ Es1) as ([| | |sl2| |] & E2 & X); try contradiction. eapply good_weak; [apply (good_store _ _ _ _ E2); [exact I|exact S2]|auto].
  Qed.
End Code.

End Strict.
