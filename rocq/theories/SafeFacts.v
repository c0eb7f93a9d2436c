(** ast.Walk in well-typed memory, with any visitor that keeps it so. *)
From Verif Require Import Text GoAst Ast Walk Printer Expand Heap HeapWalk HeapParse HeapVisit SpecHeap SpecNil SpecTyped SpecBuilt SpecVisit SpecSafe
  HeapFacts HeapParseFacts HeapNil TypedFacts TypedRead TypedParse VisitFacts TourFacts.
From Verif Require Import SpecTyped.
From Coq Require Import Arith Lia Bool.
Open Scope nat_scope.
Open Scope list_scope.

(** ** What stays the same *)
Definition stays (h h' : heap) : Prop :=
  kinds false (view h) (view h') /\ forall a ps, nth_error h a = Some (CParts ps) -> exists ps', nth_error h' a = Some (CParts ps') /\ List.length ps = List.length ps'.
Lemma stays_refl h : stays h h.
Proof. split; [apply kinds_refl|eauto]. Qed.
Lemma stays_trans a b c : stays a b -> stays b c -> stays a c.
Proof.
  intros [K P] [K' P']. split; [exact (kinds_trans false _ _ _ K K')|]. intros p ps E. destruct (P _ _ E) as (ps1 & E1 & L1). destruct (P' _ _ E1) as (ps2 & E2 & L2). exists ps2. split; [exact E2|congruence].
Qed.
Lemma same_kind_weak s g g' c c' : same_kind s g g' c c' -> same_kind false g g' c c'.
Proof. destruct c, c'; cbn; auto. discriminate. Qed.
Lemma kinds_weak s g g' : kinds s g g' -> kinds false g g'.
Proof.
  intros [K _]. split; [|discriminate]. intros a c E. destruct (K _ _ E) as (c' & E' & S). exists c'. split; [exact E'|]. exact (same_kind_weak _ _ _ _ _ S).
Qed.
Lemma assignable_same g c c' : assignable g c c' -> same_kind false g g c c'.
Proof. destruct c, c'; cbn; auto. discriminate. Qed.
Lemma assignable_typed g c c' : assignable g c c' -> typed_cell g c'.
Proof. destruct c, c'; cbn; tauto. Qed.
Lemma reaches_stays h h' : typed (view h) -> reaches h h' -> typed (view h') /\ stays h h'.
Proof.
  intros T R. induction R as [|h1 c R [T1 S1] C|h1 p c c' R [T1 S1] E A L|gp spare fn data h1 h2 r R [T1 S1] E|spare fuel f h1 h2 r R [T1 S1] F E].
  - auto using stays_refl.
  - split; [apply (typed_alloc false); auto; discriminate|]. eapply stays_trans; [exact S1|]. split; [apply (kinds_alloc false); discriminate|].
    intros a ps Ea. exists ps. split; [|reflexivity]. rewrite nth_error_app1; [exact Ea|apply nth_error_Some; congruence].
  - assert (Lp : p < List.length h1) by (apply nth_error_Some; congruence). unfold write. rewrite (proj2 (Nat.ltb_lt _ _) Lp). pose proof (assignable_same _ _ _ A) as Sk.
    split; [exact (typed_put false _ _ _ _ E Sk T1 (assignable_typed _ _ _ A))|]. eapply stays_trans; [exact S1|]. split; [exact (kinds_put false _ _ _ _ E Sk)|].
    intros a ps Ea. rewrite put_spec by exact Lp. destruct (Nat.eqb_spec a p) as [->|]; [|eauto]. rewrite E in Ea. injection Ea as ->. destruct c'; try contradiction. eauto.
  - split; [exact (proj1 (gp_Parse gp spare fn data h1 T1 _ _ E))|]. eapply stays_trans; [exact S1|]. split; [exact (kinds_weak _ _ _ (proj1 (proj2 (gp_Parse gp spare fn data h1 T1 _ _ E))))|].
    destruct (parse_fresh gp spare fn data h1) as (h2' & r' & E' & [t ->] & _). rewrite E in E'. injection E' as -> <-. intros a ps Ea. exists ps. split; [|reflexivity]. rewrite nth_error_app1; [exact Ea|apply nth_error_Some; congruence].
  - destruct (good_ExpandAlternates true spare fuel f h1 F T1 _ _ E) as (T2 & K & _). split; [exact T2|]. eapply stays_trans; [exact S1|]. split; [exact (kinds_weak _ _ _ K)|].
    intros a ps Ea. destruct (proj1 K _ _ Ea) as ([] & E2 & S); try contradiction. rewrite <- (S eq_refl) in E2. eauto.
Qed.
Lemma reaches_trans a b c : reaches a b -> reaches b c -> reaches a c.
Proof. intros R R'. induction R'; [exact R|eapply reaches_new|eapply reaches_assign|eapply reaches_parse|eapply reaches_expand]; eassumption. Qed.
Lemma node_mono h h' n : stays h h' -> node_typed (view h) n -> node_typed (view h') n.
Proof.
  intros [K P] N. destruct n as [f|w|o|p]; cbn in *; auto.
  - intros p ->. destruct (N p eq_refl) as [sl E]. destruct (proj1 K _ _ E) as ([] & E' & S); try contradiction. eauto.
  - destruct N as [N|N]; [left; exact (value_mono false _ _ _ K N)|right; exact (sort_mono false true _ _ _ K N)].
  - intros a ->. destruct (N a eq_refl) as [ps E]. destruct (P _ _ E) as (ps' & E' & _). eauto.
Qed.

(** ** Walks *)
Section Guest.
  Context {V S : Type}.
  Variable visit : V -> hnode -> S -> M (option V * S).
  Hypothesis guest : forall v n s h h' r, typed (view h) -> node_typed (view h) n -> run (visit v n s) h = (h', r) -> reaches h h'.
  Definition oops {A} (h h' : heap) (r : res A) : Prop :=
    match r with Ok _ => True | Panic m => nil_or_overflow m \/ m = unexpected_type (str "<nil>") | Err _ => False end \/
    exists v n s h0 r0, reaches h h0 /\ node_typed (view h0) n /\ run (visit v n s) h0 = (h', r0) /\
      match r with Ok _ => False | Panic m => r0 = Panic m | Err e => r0 = Err e end.
  Definition safe {A} (Q : heap -> A -> Prop) (m : M A) (h : heap) : Prop :=
    typed (view h) -> forall h' r, run m h = (h', r) -> reaches h h' /\ oops h h' r /\ forall a, r = Ok a -> Q h' a.
  Notation any := (fun _ _ => True).
  Lemma safe_bind {A B} (m : M A) (k : A -> M B) P Q h :
    safe P m h -> (forall a h1, stays h h1 -> P h1 a -> safe Q (k a) h1) -> safe Q (mbind m k) h.
  Proof.
    intros G1 G2 T h' r E. rewrite run_bind in E. destruct (m h) as [h1 r1] eqn:E1. destruct (G1 T _ _ E1) as (R1 & O1 & Q1). destruct (reaches_stays _ _ T R1) as [T1 S1].
    destruct r1 as [a|e|x].
    - destruct (G2 a h1 S1 (Q1 _ eq_refl) T1 _ _ E) as (R2 & O2 & Q2). split; [exact (reaches_trans _ _ _ R1 R2)|]. split; [|exact Q2].
      destruct O2 as [O2|(v & n & s & h0 & r0 & R0 & X)]; [left; exact O2|right]. exists v, n, s, h0, r0. split; [exact (reaches_trans _ _ _ R1 R0)|exact X].
    - injection E as <- <-. split; [exact R1|]. split; [|discriminate]. destruct O1 as [[]|O1]. right. exact O1.
    - injection E as <- <-. split; [exact R1|]. split; [|discriminate]. destruct O1 as [O1|O1]; [left|right]; exact O1.
  Qed.
  Lemma safe_ret {A} (a : A) (Q : heap -> A -> Prop) h : Q h a -> safe Q (ret a) h.
  Proof. intros H T h' r [= <- <-]. split; [constructor|]. split; [left; exact I|]. intros ? [= <-]. exact H. Qed.
  Lemma safe_run {A} (m : M A) (Q : heap -> A -> Prop) h a : m h = (h, Ok a) -> Q h a -> safe Q m h.
  Proof. intros E H T h' r X. rewrite E in X. injection X as <- <-. split; [constructor|]. split; [left; exact I|]. intros ? [= <-]. exact H. Qed.
  Lemma safe_panics {A} m (Q : heap -> A -> Prop) h : nil_or_overflow m \/ m = unexpected_type (str "<nil>") -> safe Q (panics m) h.
  Proof. intros H T h' r [= <- <-]. split; [constructor|]. split; [left; exact H|discriminate]. Qed.
  Lemma safe_visit v n s h : node_typed (view h) n -> safe any (visit v n s) h.
  Proof.
    intros N T h' r E. split; [exact (guest _ _ _ _ _ _ T N E)|]. split; [|auto]. destruct r; [left; exact I|right..]; exists v, n, s, h; eexists; (split; [constructor|]); (split; [exact N|]); (split; [exact E|reflexivity]).
  Qed.
  Lemma safe_typed {A} (m : M A) Q h : (typed (view h) -> safe Q m h) -> safe Q m h.
  Proof. intros G T. exact (G T T). Qed.
  Lemma safe_part v p s h : safe any (h_visit_part visit v p s) h.
  Proof.
    eapply safe_bind; [apply safe_visit; exact I|]. intros r h1 S1 _. destruct (fst r); [|apply safe_ret; exact I]. destruct p; [apply safe_ret; exact I..|]. apply safe_panics. right. reflexivity.
  Qed.
  Lemma safe_parts v a : forall k j s h ps, nth_error h a = Some (CParts ps) -> j + k <= List.length ps -> safe any (h_visit_parts visit v a k j s) h.
  Proof.
    induction k as [|k IH]; intros j s h ps E L; cbn [h_visit_parts]; [apply safe_ret; exact I|].
    eapply safe_bind; [apply (safe_run _ (fun h1 c => h1 = h /\ c = CParts ps) h _ (get_run_ok _ _ _ E)); auto|]. intros c h1 _ [-> ->].
    destruct (nth_error ps j) as [p|] eqn:N; [|apply nth_error_None in N; lia]. eapply safe_bind; [apply safe_part|]. intros s' h2 [_ S2] _. destruct (S2 _ _ E) as (ps' & E' & L').
    apply (IH (Datatypes.S j) s' h2 ps' E'). lia.
  Qed.
  Lemma safe_op v o s h : node_typed (view h) (HOp o) -> safe any (h_visit_op visit v o s) h.
  Proof.
    intros N. eapply safe_bind; [apply safe_visit; exact N|]. intros r h1 S1 _. destruct (fst r) as [v'|]; [|apply safe_ret; exact I]. destruct o as [c|a|]; [apply safe_ret; exact I| |apply safe_panics; right; reflexivity].
    destruct (node_mono _ _ _ S1 N a eq_refl) as [ps E]. eapply safe_bind; [apply (safe_run _ (fun h2 c => h2 = h1 /\ c = CParts ps) h1 _ (get_run_ok _ _ _ E)); auto|]. intros c h2 _ [-> ->].
    apply (safe_parts v' a _ 0 _ h1 ps E). lia.
  Qed.
  Lemma safe_each b walk xs : (forall w s h, sort_word b (view h) w -> safe any (walk w s) h) ->
    forall k j s h, slice_of (view h) (sort_word b (view h)) xs -> j + k = sl_len xs -> safe (A:=S) any (h_visit_each walk xs k j s) h.
  Proof.
    intros Hw. induction k as [|k IH]; intros j s h Sl L; cbn [h_visit_each]; [apply safe_ret; exact I|].
    destruct (at_run _ h xs j Sl) as (w & Ew & Vw); [lia|]. eapply safe_bind; [apply (safe_run _ (fun h2 x => h2 = h /\ x = w) h w Ew); auto|]. intros w' h1 _ [-> ->].
    eapply safe_bind; [apply Hw; exact Vw|]. intros s' h2 [K2 _] _. apply IH; [exact (slice_mono false _ _ _ _ K2 Sl)|lia].
  Qed.
  Lemma safe_value fuel : forall v w s h, value_word (view h) w -> safe any (h_visit_value visit fuel v w s) h.
  Proof.
    induction fuel as [|fuel IH]; intros v w s h Vw; cbn [h_visit_value]; [apply safe_panics; left; right; reflexivity|].
    replace (is_rule w) with false by (destruct w; [reflexivity..|destruct Vw]). eapply safe_bind; [apply safe_visit; left; exact Vw|]. intros r h1 S1 _. destruct (fst r) as [v'|]; [|apply safe_ret; exact I].
    destruct w as [[p|]|e|x| |q]; try (apply safe_ret; exact I); [|apply safe_panics; left; left; reflexivity|apply safe_panics; right; reflexivity|destruct Vw].
    destruct (value_mono false _ _ _ (proj1 S1) Vw p eq_refl) as [c E]. eapply safe_bind; [apply (safe_run _ (fun h2 x => h2 = h1 /\ x = c) h1 c (sexpr_run _ _ _ E)); auto|]. intros c' h2 _ [-> ->].
    apply safe_typed. intros T1. eapply safe_bind; [apply safe_op; exact (proj1 (T1 _ _ E))|]. intros s' h2 S2 _.
    destruct (proj1 (kinds_alike _ _ _ (proj1 S2)) _ _ E) as [c2 E2]. eapply safe_bind; [apply (safe_run _ (fun h3 x => h3 = h2 /\ x = c2) h2 c2 (sexpr_run _ _ _ E2)); auto|]. intros c' h3 _ [-> ->].
    apply safe_typed. intros T2. apply (safe_each false); [intros w' s2 h3 Vw'; apply IH; exact Vw'| |reflexivity]. exact (proj2 (proj2 (proj2 (T2 _ _ E2)))).
  Qed.
  Lemma safe_rule fuel v w s h : rule_word (view h) w -> safe any (h_visit_rule visit fuel v w s) h.
  Proof.
    intros Vw. destruct w as [?|?|?| |q]; try (destruct Vw; fail). cbn [h_visit_rule is_rule negb]. eapply safe_bind; [apply safe_visit; right; exact Vw|]. intros r h1 S1 _. destruct (fst r) as [v'|]; [|apply safe_ret; exact I].
    destruct q as [p|]; [|apply safe_panics; left; left; reflexivity].
    destruct (sort_mono false true _ _ _ (proj1 S1) Vw p eq_refl) as [c E]. eapply safe_bind; [apply (safe_run _ (fun h2 x => h2 = h1 /\ x = c) h1 c (rule_run _ _ _ E)); auto|]. intros c' h2 _ [-> ->].
    apply safe_typed. intros T1. eapply safe_bind; [apply safe_value; exact (proj1 (T1 _ _ E))|]. intros s' h2 S2 _.
    destruct (proj1 (proj2 (kinds_alike _ _ _ (proj1 S2))) _ _ E) as [c2 E2]. eapply safe_bind; [apply (safe_run _ (fun h3 x => h3 = h2 /\ x = c2) h2 c2 (rule_run _ _ _ E2)); auto|]. intros c' h3 _ [-> ->].
    apply safe_typed. intros T2. apply safe_value. exact (proj2 (proj2 (T2 _ _ E2))).
  Qed.
  Lemma safe_file fuel v f s h : node_typed (view h) (HFile f) -> safe any (h_visit_file visit fuel v f s) h.
  Proof.
    intros N. eapply safe_bind; [apply safe_visit; exact N|]. intros r h1 S1 _. destruct (fst r) as [v'|]; [|apply safe_ret; exact I]. destruct f as [p|]; [|apply safe_panics; left; left; reflexivity].
    destruct (node_mono _ _ _ S1 N p eq_refl) as [sl E]. eapply safe_bind; [apply (safe_run _ (fun h2 c => h2 = h1 /\ c = CFile sl) h1 _ (get_run_ok _ _ _ E)); auto|]. intros c h2 _ [-> ->].
    apply safe_typed. intros T1. apply (safe_each true); [intros w' s2 h3 Vw'; apply safe_rule; exact Vw'|exact (T1 _ _ E)|reflexivity].
  Qed.
  Lemma safe_Walk fuel v n s h : node_typed (view h) n -> safe any (h_Walk visit fuel v n s) h.
  Proof.
    intros N. destruct n as [f|w|o|p]; cbn [h_Walk]; [apply safe_file; exact N| |apply safe_op; exact N|apply safe_part].
    destruct w; [apply safe_value; destruct N as [N|[]]; exact N..|]. apply safe_rule. destruct N as [[]|N]; exact N.
  Qed.
End Guest.

(** ** A visitor that only reads, and always goes on *)
Section All.
  Context {V S : Type}.
  Variable visit : V -> hnode -> S -> M (option V * S).
  Variable h : heap.
  Notation g := (view h).
  Hypothesis T : typed g.
  Hypothesis goes_on : forall v n s, exists v' s', run (visit v n s) h = (h, Ok (Some v', s')).
  (** [m] leaves memory alone, and succeeds if [P]. *)
  Definition decides {A} (P : Prop) (m : M A) : Prop := exists r, m h = (h, r) /\ match r with Ok _ => P | Err _ => False | Panic _ => ~ P end.
  Lemma dec_visit {A} P v n s (k : option V * S -> M A) : (forall v' s', decides P (k (Some v', s'))) -> decides P (mbind (visit v n s) k).
  Proof. intros H. destruct (goes_on v n s) as (v' & s' & E). destruct (H v' s') as (r & R & D). exists r. unfold decides. rewrite (mbind_ok _ _ _ _ _ E). auto. Qed.
  Lemma dec_run {A B} P (m : M A) a (k : A -> M B) : m h = (h, Ok a) -> decides P (k a) -> decides P (mbind m k).
  Proof. intros E (r & R & D). exists r. rewrite (mbind_ok _ _ _ _ _ E). auto. Qed.
  Lemma dec_and {A B} P Q (m : M A) (k : A -> M B) : decides P m -> (forall a, decides Q (k a)) -> decides (P /\ Q) (mbind m k).
  Proof.
    intros ([a|e|x] & E & D) H; [|destruct D|].
    - destruct (H a) as (r & R & D'). exists r. rewrite (mbind_ok _ _ _ _ _ E). split; [exact R|]. destruct r; tauto.
    - exists (Panic x). rewrite (mbind_panic _ _ _ _ _ E). split; [reflexivity|]. tauto.
  Qed.
  Lemma dec_iff {A} P Q (m : M A) : (P <-> Q) -> decides P m -> decides Q m.
  Proof. intros H (r & E & D). exists r. split; [exact E|]. destruct r; tauto. Qed.
  Lemma dec_ret {A} (P : Prop) (a : A) : P -> decides P (ret a).
  Proof. intros H. exists (Ok a). split; [reflexivity|exact H]. Qed.
  Lemma dec_panics {A} (P : Prop) m : ~ P -> decides P (@panics A m).
  Proof. intros H. exists (Panic m). split; [reflexivity|exact H]. Qed.
  Lemma dec_part v p s : decides (p <> PNilPart) (h_visit_part visit v p s).
  Proof. apply dec_visit. intros v' s'. cbn [fst]. destruct p; [apply dec_ret; discriminate..|apply dec_panics; auto]. Qed.
  Lemma dec_parts v a ps2 : forall ps1 s, nth_error h a = Some (CParts (ps1 ++ ps2)) -> decides (~ In PNilPart ps2) (h_visit_parts visit v a (List.length ps2) (List.length ps1) s).
  Proof.
    induction ps2 as [|p ps2 IH]; intros ps1 s E; cbn [List.length h_visit_parts]; [apply dec_ret; auto|]. eapply dec_run; [exact (get_run_ok _ _ _ E)|]. cbn beta iota.
    rewrite nth_error_app2, Nat.sub_diag by auto. cbn [nth_error]. apply (dec_iff (p <> PNilPart /\ ~ In PNilPart ps2)); [cbn; split; intros; [|split]; intuition congruence|].
    apply dec_and; [apply dec_part|]. intros s'. specialize (IH (ps1 ++ [p]) s'). rewrite <- app_assoc, app_length, Nat.add_1_r in IH. exact (IH E).
  Qed.
  Lemma dec_op v o s : node_typed g (HOp o) -> decides (passable_op g o) (h_visit_op visit v o s).
  Proof.
    intros N. apply dec_visit. intros v' s'. cbn [fst snd]. destruct o as [c|a|]; [apply dec_ret; exact I| |apply dec_panics; intros []].
    destruct (N a eq_refl) as [ps E]. eapply dec_run; [exact (get_run_ok _ _ _ E)|]. cbn beta iota. apply (dec_iff (~ In PNilPart ps)); [|exact (dec_parts v' a ps [] s' E)].
    cbn. split; [eauto|]. intros (ps' & E' & F). rewrite E in E'. injection E' as <-. exact F.
  Qed.
  Lemma dec_each P walk xs ws2 : forall ws1 s, slice_at g xs (ws1 ++ ws2) -> Forall (fun w => forall s, decides (P w) (walk w s)) ws2 ->
    decides (A := S) (Forall P ws2) (h_visit_each walk xs (List.length ws2) (List.length ws1) s).
  Proof.
    induction ws2 as [|w ws2 IH]; intros ws1 s Sl F; cbn [List.length h_visit_each]; [apply dec_ret; constructor|]. inversion F as [|? ? Hw F']; subst.
    assert (A : at_ xs (List.length ws1) h = (h, Ok w)) by (eapply at_ok; [apply sub_refl|exact Sl|]; rewrite nth_error_app2, Nat.sub_diag by auto; reflexivity).
    eapply dec_run; [exact A|]. apply (dec_iff (P w /\ Forall P ws2)); [split; [intros []; constructor; assumption|intros X; inversion X; auto]|]. apply dec_and; [apply Hw|]. intros s'.
    specialize (IH (ws1 ++ [w]) s'). rewrite <- app_assoc, app_length, Nat.add_1_r in IH. exact (IH Sl F').
  Qed.
  Definition clear_value (fuel : nat) (w : word) : Prop := shaped g fuel w /\ forall y, within_value g w y -> passable g y.
  Lemma dec_value fuel : forall v w s, value_word g w -> decides (clear_value fuel w) (h_visit_value visit fuel v w s).
  Proof.
    induction fuel as [|fuel IH]; intros v w s Vw; cbn [h_visit_value]; [apply dec_panics; intros [[] _]|].
    replace (is_rule w) with false by (destruct w; [reflexivity..|destruct Vw]). apply dec_visit. intros v' s'. cbn [fst snd].
    assert (Lf : forall w, (forall p, w <> WSExpr p) -> shaped g (Datatypes.S fuel) w -> passable g w -> clear_value (Datatypes.S fuel) w).
    { intros x N Sx Px. split; [exact Sx|]. intros y Wt. inversion Wt; subst; [exact Px|]. edestruct N; reflexivity. }
    destruct w as [[p|]|e|x| |q].
    - destruct (Vw p eq_refl) as [c E]. pose proof (T _ _ E) as Tc. destruct (op_of_typed _ _ Tc) as [o O]. destruct Tc as (No & Xi & Xa & Sl). destruct (expr_of_typed _ _ Xi) as [ai Ei].
      destruct (expr_of_typed _ _ Xa) as [ax Ex]. destruct (slice_of_at _ _ _ Sl) as (ws & Sw & Fw). eapply dec_run; [exact (sexpr_run _ _ _ E)|].
      apply (dec_iff (passable_op g (h_op c) /\ Forall (clear_value fuel) ws)).
      + split.
        * intros [Po F]. split; [cbn [shaped]; exists c, ws, o, ai, ax; repeat (split; [assumption|]); eapply Forall_impl; [|exact F]; intros y [Y _]; exact Y|].
          intros y Wt. inversion Wt as [|p' s0 ws' y' x' E' Sl' Iw W']; subst; [exists c; auto|]. rewrite E in E'. injection E' as <-. rewrite (slice_at_fun _ _ _ _ Sl' Sw) in Iw.
          rewrite Forall_forall in F. exact (proj2 (F _ Iw) _ W').
        * intros [Sh Pa]. split; [destruct (Pa _ (within_here _ _)) as (c' & E' & Po); rewrite E in E'; injection E' as <-; exact Po|].
          cbn [shaped] in Sh. destruct Sh as (c' & ws' & o' & ai' & ax' & E' & _ & _ & _ & Sl' & F). rewrite E in E'. injection E' as <-. rewrite (slice_at_fun _ _ _ _ Sl' Sw) in F.
          rewrite Forall_forall in F |- *. intros y Iy. split; [exact (F _ Iy)|]. intros z Wz. apply Pa. exact (within_arg _ _ _ _ _ _ E Sw Iy Wz).
      + apply dec_and; [apply dec_op; exact No|]. intros s2. eapply dec_run; [exact (sexpr_run _ _ _ E)|]. rewrite (proj1 Sw). apply (dec_each _ _ _ ws [] s2 Sw).
        eapply Forall_impl; [|exact Fw]. intros y Vy s3. apply IH. exact Vy.
    - apply dec_panics. intros [_ Pa]. exact (Pa _ (within_here _ _)).
    - apply dec_ret. apply Lf; [discriminate| |exact I]. destruct e as [a|]; [|exact I]. exact (Vw a eq_refl).
    - apply dec_ret. apply Lf; [discriminate|exact I..].
    - apply dec_panics. intros [_ Pa]. exact (Pa _ (within_here _ _)).
    - destruct Vw.
  Qed.
  Definition clear_rule (fuel : nat) (w : word) : Prop := exists p c, w = WRule (Some p) /\ nth_error h p = Some (CRule c) /\ clear_value fuel (h_match c) /\ clear_value fuel (h_result c).
  Lemma dec_rule fuel v w s : rule_word g w -> decides (clear_rule fuel w) (h_visit_rule visit fuel v w s).
  Proof.
    intros Vw. destruct w as [?|?|?| |q]; try (destruct Vw; fail). cbn [h_visit_rule is_rule negb]. apply dec_visit. intros v' s'. cbn [fst snd].
    destruct q as [p|]; [|apply dec_panics; intros (p & c & X & _); discriminate]. destruct (Vw p eq_refl) as [c E]. destruct (T _ _ E) as (Vm & _ & Vr). eapply dec_run; [exact (rule_run _ _ _ E)|].
    apply (dec_iff (clear_value fuel (h_match c) /\ clear_value fuel (h_result c))).
    - split; [intros [A B]; exists p, c; auto|]. intros (p' & c' & [= <-] & E' & X). rewrite E in E'. injection E' as <-. exact X.
    - apply dec_and; [apply dec_value; exact Vm|]. intros s2. eapply dec_run; [exact (rule_run _ _ _ E)|]. apply dec_value. exact Vr.
  Qed.
  Lemma dec_file fuel v f s sl ws : nth_error h f = Some (CFile sl) -> slice_at g sl ws -> decides (Forall (clear_rule fuel) ws) (h_visit_file visit fuel v (Some f) s).
  Proof.
    intros E Sw. apply dec_visit. intros v' s'. cbn [fst snd]. eapply dec_run; [exact (get_run_ok _ _ _ E)|]. cbn beta iota. rewrite (proj1 Sw). apply (dec_each _ _ _ ws [] s' Sw).
    destruct (slice_of_at _ _ _ (T _ _ E)) as (ws' & Sw' & Fw). rewrite (slice_at_fun _ _ _ _ Sw Sw'). eapply Forall_impl; [|exact Fw]. intros y Vy s2. apply dec_rule. exact Vy.
  Qed.
End All.

(** ** ast.Contains with a predicate that reads *)
Section Told.
  Variable pred : hnode -> M bool.
  Variable h : heap.
  Notation g := (view h).
  Hypothesis T : typed g.
  Hypothesis reads : forall n, exists b, run (pred n) h = (h, Ok b).
  Definition says (b : bool) (n : hnode) : Prop := run (pred n) h = (h, Ok b).
  Definition asks := h_inspector (fun n (found : bool) => do found' <- (if found then ret true else pred n); ret (negb found', found')).
  Definition tells (R : hnode -> Prop) (m : bool -> M bool) : Prop :=
    forall b, exists r, m b h = (h, r) /\
      match r with
      | Ok true => b = true \/ exists x, R x /\ says true x
      | Ok false => b = false /\ forall x, R x -> says false x
      | Err _ => False
      | Panic x => nil_or_overflow x \/ x = unexpected_type (str "<nil>")
      end.
  Lemma tells_iff (R R' : hnode -> Prop) m : (forall x, R x <-> R' x) -> tells R m -> tells R' m.
  Proof.
    intros E H b. destruct (H b) as (r & X & Y). exists r. split; [exact X|]. destruct r as [[]| |]; auto.
    - destruct Y as [Y|(x & Rx & Sx)]; [auto|right; exists x; split; [apply E; exact Rx|exact Sx]].
    - destruct Y as [Y Z]. split; [exact Y|]. intros x Rx. apply Z, E, Rx.
  Qed.
  Lemma tells_ret : tells (fun _ => False) (fun b => ret b).
  Proof. intros b. exists (Ok b). split; [reflexivity|]. destruct b; [auto|]. split; [reflexivity|intros x []]. Qed.
  Lemma tells_panics R m : nil_or_overflow m \/ m = unexpected_type (str "<nil>") -> tells R (fun _ => panics m).
  Proof. intros H b. exists (Panic m). split; [reflexivity|exact H]. Qed.
  Lemma tells_then R1 R2 m k : tells R1 m -> tells R2 k -> tells (fun x => R1 x \/ R2 x) (fun b => mbind (m b) k).
  Proof.
    intros H1 H2 b. destruct (H1 b) as ([b1|e|x] & E & D); [|destruct D|exists (Panic x); rewrite (mbind_panic _ _ _ _ _ E); auto].
    destruct (H2 b1) as (r & E2 & D2). exists r. rewrite (mbind_ok _ _ _ _ _ E). split; [exact E2|]. destruct r as [[]| |]; auto.
    - destruct D2 as [->|(x & Rx & Sx)]; [destruct D as [->|(x & Rx & Sx)]; [auto|]|]; right; exists x; auto.
    - destruct D2 as [-> D2]. destruct D as [-> D]. split; [reflexivity|]. intros x [Rx|Rx]; auto.
  Qed.
  Lemma tells_run {A} R (m : M A) (a : A) k : m h = (h, Ok a) -> tells R (k a) -> tells R (fun b => mbind m (fun a => k a b)).
  Proof. intros E H b. destruct (H b) as (r & X & D). exists r. rewrite (mbind_ok _ _ _ _ _ E). auto. Qed.
  Lemma tells_visit R n (k : option unit * bool -> M bool) : (forall b, k (None, b) = ret b) -> tells R (fun b => k (Some tt, b)) ->
    tells (fun x => x = n \/ R x) (fun b => mbind (asks tt n b) k).
  Proof.
    intros K H b. unfold asks, h_inspector. destruct (reads n) as [bn En].
    assert (E : run (do r <- (do found' <- (if b then ret true else pred n); ret (negb found', found')); ret (if fst r then Some tt else None, snd r)) h = (h, Ok (if b || bn then None else Some tt, b || bn))).
    { destruct b; [reflexivity|]. rewrite !run_bind, En. destruct bn; reflexivity. }
    rewrite (mbind_ok _ _ _ _ _ E). destruct (b || bn) eqn:Z.
    - exists (Ok true). rewrite K. split; [reflexivity|]. destruct b; [auto|]. cbn in Z. subst. right. exists n. auto.
    - apply orb_false_iff in Z. destruct Z as [-> ->]. destruct (H false) as (r & X & D). exists r. split; [exact X|]. destruct r as [[]| |]; auto.
      + destruct D as [D|(x & Rx & Sx)]; [auto|]. right. exists x. auto.
      + destruct D as [_ D]. split; [reflexivity|]. intros x [->|Rx]; [exact En|exact (D x Rx)].
  Qed.
  Lemma below_inv n x : below g n x <-> x = n \/ exists m, child g n m /\ below g m x.
  Proof. split; [intros B; inversion B; subst; eauto|]. intros [->|(m & C & B)]; [constructor|econstructor; eassumption]. Qed.
  Lemma below_leaf n : (forall m, ~ child g n m) -> forall x, (x = n \/ False) <-> below g n x.
  Proof. intros N x. rewrite below_inv. split; [intros [->|[]]; auto|]. intros [->|(m & C & _)]; [auto|destruct (N m C)]. Qed.
  (** A node with no children at which Walk stops or panics. *)
  Lemma tells_end n k : (forall b, k (None, b) = ret b) -> (forall m, ~ child g n m) -> (tells (fun _ => False) (fun b => k (Some tt, b))) -> tells (below g n) (fun b => mbind (asks tt n b) k).
  Proof. intros K N H. eapply tells_iff; [apply below_leaf; exact N|]. apply tells_visit; assumption. Qed.
  Lemma tells_part p : tells (below g (HPart p)) (h_visit_part asks tt p).
  Proof.
    eapply tells_iff; [apply below_leaf; intros m C; inversion C|]. apply tells_visit; [reflexivity|]. destruct p; cbn [fst snd]; [apply tells_ret..|apply tells_panics; auto].
  Qed.
  Lemma tells_parts a ps2 : forall ps1, nth_error h a = Some (CParts (ps1 ++ ps2)) ->
    tells (fun x => exists p, In p ps2 /\ below g (HPart p) x) (h_visit_parts asks tt a (List.length ps2) (List.length ps1)).
  Proof.
    induction ps2 as [|p ps2 IH]; intros ps1 E; cbn [List.length h_visit_parts].
    - eapply tells_iff; [|apply tells_ret]. intros x. split; [intros []|intros (p & [] & _)].
    - apply (tells_run _ _ _ (fun c b => match c with CParts ps => match nth_error ps (List.length ps1) with Some p => do s' <- h_visit_part asks tt p b; h_visit_parts asks tt a (List.length ps2) (Datatypes.S (List.length ps1)) s' | None => panics ill_typed end | _ => panics ill_typed end) (get_run_ok _ _ _ E)).
      rewrite nth_error_app2, Nat.sub_diag by auto. cbn [nth_error]. eapply tells_iff; [|eapply (tells_then _ (fun x => exists q, In q ps2 /\ below g (HPart q) x)); [apply tells_part|]].
      + intros x. split; [intros [B|(q & Iq & B)]; [exists p|exists q]; cbn; auto|]. intros (q & [<-|Iq] & B); eauto.
      + specialize (IH (ps1 ++ [p])). rewrite <- app_assoc, app_length, Nat.add_1_r in IH. exact (IH E).
  Qed.
  Lemma tells_op o : node_typed g (HOp o) -> tells (below g (HOp o)) (h_visit_op asks tt o).
  Proof.
    intros N. destruct o as [c|a|].
    - eapply tells_iff; [apply below_leaf; intros m C; inversion C|]. apply tells_visit; [reflexivity|]. apply tells_ret.
    - destruct (N a eq_refl) as [ps E]. eapply tells_iff; [|apply tells_visit; [reflexivity|]; cbn [fst snd]; eapply (tells_run _ _ _ (fun c b => match c with CParts ps => h_visit_parts asks tt a (List.length ps) 0 b | _ => panics ill_typed end)); [exact (get_run_ok _ _ _ E)|exact (tells_parts a ps [] E)]].
      intros x. rewrite below_inv. split; (intros [->|H]; [auto|right]).
      + destruct H as (p & Ip & B). exists (HPart p). split; [econstructor; eassumption|exact B].
      + destruct H as (m & C & B). inversion C as [| | | | |a' ps' p E' Ip]; subst. rewrite E in E'. injection E' as <-. eauto.
    - apply (tells_end (HOp HNilOp) (fun r => match fst r with None => ret (snd r) | Some _ => panics (unexpected_type (str "<nil>")) end)); [reflexivity|intros m C; inversion C|]. apply tells_panics. right. reflexivity.
  Qed.
  Lemma tells_each walk xs ws2 : forall ws1, slice_at g xs (ws1 ++ ws2) -> Forall (fun w => tells (below g (HWord w)) (walk w)) ws2 ->
    tells (fun x => exists w, In w ws2 /\ below g (HWord w) x) (h_visit_each walk xs (List.length ws2) (List.length ws1)).
  Proof.
    induction ws2 as [|w ws2 IH]; intros ws1 Sl F; cbn [List.length h_visit_each].
    - eapply tells_iff; [|apply tells_ret]. intros x. split; [intros []|intros (p & [] & _)].
    - inversion F as [|? ? Hw F']; subst.
      assert (A : at_ xs (List.length ws1) h = (h, Ok w)) by (eapply at_ok; [apply sub_refl|exact Sl|]; rewrite nth_error_app2, Nat.sub_diag by auto; reflexivity).
      apply (tells_run _ _ _ (fun w b => do s' <- walk w b; h_visit_each walk xs (List.length ws2) (Datatypes.S (List.length ws1)) s') A). eapply tells_iff; [|eapply (tells_then _ (fun x => exists q, In q ws2 /\ below g (HWord q) x)); [exact Hw|]].
      + intros x. split; [intros [B|(q & Iq & B)]; [exists w|exists q]; cbn; auto|]. intros (q & [<-|Iq] & B); eauto.
      + specialize (IH (ws1 ++ [w])). rewrite <- app_assoc, app_length, Nat.add_1_r in IH. exact (IH Sl F').
  Qed.
  Lemma tells_value fuel : forall w, value_word g w -> tells (below g (HWord w)) (h_visit_value asks fuel tt w).
  Proof.
    induction fuel as [|fuel IH]; intros w Vw; cbn [h_visit_value]; [apply tells_panics; left; right; reflexivity|].
    replace (is_rule w) with false by (destruct w; [reflexivity..|destruct Vw]). destruct w as [[p|]|e|x| |q].
    - destruct (Vw p eq_refl) as [c E]. pose proof (T _ _ E) as Tc. destruct Tc as (No & _ & _ & Sl). destruct (slice_of_at _ _ _ Sl) as (ws & Sw & Fw).
      eapply tells_iff; [|apply tells_visit; [reflexivity|]; cbn [fst snd]; eapply (tells_run _ _ _ (fun c b => do s' <- h_visit_op asks tt (h_op c) b; do c <- get_sexpr p; h_visit_each (h_visit_value asks fuel tt) (h_args c) (sl_len (h_args c)) 0 s')); [exact (sexpr_run _ _ _ E)|];
        apply tells_then; [apply tells_op; exact No|]; eapply (tells_run _ _ _ (fun c b => h_visit_each (h_visit_value asks fuel tt) (h_args c) (sl_len (h_args c)) 0 b)); [exact (sexpr_run _ _ _ E)|];
        rewrite (proj1 Sw); apply (tells_each _ _ ws [] Sw); eapply Forall_impl; [|exact Fw]; exact IH].
      intros x. rewrite (below_inv (HWord _)). split; (intros [->|H]; [auto|right]).
      + destruct H as [B|(w & Iw & B)]; eexists; (split; [|exact B]); econstructor; eassumption.
      + destruct H as (m & C & B). inversion C as [| | |p' s E'|p' s ws' w E' Sw' Iw|]; subst; rewrite E in E'; injection E' as <-; [auto|]. right. rewrite (slice_at_fun _ _ _ _ Sw' Sw) in Iw. eauto.
    - apply tells_end; [reflexivity|intros m C; inversion C|]. apply tells_panics. left. left. reflexivity.
    - apply tells_end; [reflexivity|intros m C; inversion C|]. apply tells_ret.
    - apply tells_end; [reflexivity|intros m C; inversion C|]. apply tells_ret.
    - apply tells_end; [reflexivity|intros m C; inversion C|]. apply tells_panics. right. reflexivity.
    - destruct Vw.
  Qed.
  Lemma tells_rule fuel w : rule_word g w -> tells (below g (HWord w)) (h_visit_rule asks fuel tt w).
  Proof.
    intros Vw. destruct w as [?|?|?| |[p|]]; try (destruct Vw; fail); cbn [h_visit_rule is_rule negb].
    - destruct (Vw p eq_refl) as [c E]. destruct (T _ _ E) as (Vm & _ & Vr).
      eapply tells_iff; [|apply tells_visit; [reflexivity|]; cbn [fst snd]; eapply (tells_run _ _ _ (fun c b => do s' <- h_visit_value asks fuel tt (h_match c) b; do c <- get_rule p; h_visit_value asks fuel tt (h_result c) s')); [exact (rule_run _ _ _ E)|];
        apply tells_then; [apply tells_value; exact Vm|]; eapply (tells_run _ _ _ (fun c b => h_visit_value asks fuel tt (h_result c) b)); [exact (rule_run _ _ _ E)|]; apply tells_value; exact Vr].
      intros x. rewrite (below_inv (HWord (WRule _))). split; (intros [->|H]; [auto|right]).
      + destruct H as [B|B]; eexists; (split; [|exact B]); [apply child_match|apply child_result]; exact E.
      + destruct H as (m & C & B). inversion C as [|p' s E'|p' s E'| | |]; subst; rewrite E in E'; injection E' as <-; auto.
    - apply tells_end; [reflexivity|intros m C; inversion C|]. apply tells_panics. left. left. reflexivity.
  Qed.
  Lemma tells_file fuel f : node_typed g (HFile f) -> tells (below g (HFile f)) (h_visit_file asks fuel tt f).
  Proof.
    intros N. destruct f as [p|].
    - destruct (N p eq_refl) as [sl E]. destruct (slice_of_at _ _ _ (T _ _ E)) as (ws & Sw & Fw).
      eapply tells_iff; [|apply tells_visit; [reflexivity|]; cbn [fst snd]; eapply (tells_run _ _ _ (fun c b => match c with CFile rules => h_visit_each (h_visit_rule asks fuel tt) rules (sl_len rules) 0 b | _ => panics ill_typed end)); [exact (get_run_ok _ _ _ E)|];
        cbn beta iota; rewrite (proj1 Sw); apply (tells_each _ _ ws [] Sw); eapply Forall_impl; [|exact Fw]; intros y Vy; apply tells_rule; exact Vy].
      intros x. rewrite (below_inv (HFile _)). split; (intros [->|H]; [auto|right]).
      + destruct H as (w & Iw & B); eexists; (split; [|exact B]); econstructor; eassumption.
      + destruct H as (m & C & B). inversion C as [p' s ws' w E' Sw' Iw| | | | |]; subst; rewrite E in E'; injection E' as <-. rewrite (slice_at_fun _ _ _ _ Sw' Sw) in Iw. eauto.
    - apply tells_end; [reflexivity|intros m C; inversion C|]. apply tells_panics. left. left. reflexivity.
  Qed.
  Lemma tells_Walk fuel n : node_typed g n -> tells (below g n) (h_Walk asks fuel tt n).
  Proof.
    intros N. destruct n as [f|w|o|p]; cbn [h_Walk]; [apply tells_file; exact N| |apply tells_op; exact N|apply tells_part].
    destruct w; [apply tells_value; destruct N as [N|[]]; exact N..|]. apply tells_rule. destruct N as [[]|N]; exact N.
  Qed.
End Told.
