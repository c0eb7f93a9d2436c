(** Facts about visitors on a heap. *)
From Verif Require Import Text GoAst Ast Walk Expand SpecTree TreeFacts Heap HeapVisit SpecHeap SpecVisit HeapFacts HeapNil.
From Coq Require Import Arith Lia Bool.

Definition node_height (n : node) : nat :=
  match n with NFile F => file_height F | NRule r => rule_height r | NSExpr s => height (SExp s) | _ => 1 end.
Definition outcome {S} (o : wout S) : res S := match o with WDone s => Ok s | WPanic m _ => Panic m end.

Lemma get_sexpr_ok h p c : nth_error h p = Some (CSExpr c) -> get_sexpr p h = (h, Ok c).
Proof. intros E. unfold get_sexpr. rewrite run_bind, get_run, E. reflexivity. Qed.
Lemma get_rule_ok h p c : nth_error h p = Some (CRule c) -> get_rule p h = (h, Ok c).
Proof. intros E. unfold get_rule. rewrite run_bind, get_run, E. reflexivity. Qed.
Lemma get_ok h p c : nth_error h p = Some c -> get p h = (h, Ok c).
Proof. intros E. rewrite get_run, E. reflexivity. Qed.
Lemma heights s fuel : height (SExp s) <= Datatypes.S fuel -> Forall (fun t => height t <= fuel) (s_args s).
Proof.
  intros H. cbn [height] in H. apply le_S_n in H. induction (s_args s) as [|a l IHl]; constructor; cbn [map fold_right] in H; [lia|apply IHl; lia].
Qed.

Lemma Forall2_in {A B} (P : A -> B -> Prop) l m : Forall2 P l m -> Forall2 (fun a b => P a b /\ In b m) l m.
Proof.
  intros F. assert (G : forall n, incl m n -> Forall2 (fun a b => P a b /\ In b n) l m).
  { intros n. induction F; intros N; constructor; [split; [assumption|apply N; left; reflexivity]|apply IHF; intros z Z; apply N; right; exact Z]. }
  apply G. intros z Z. exact Z.
Qed.

Lemma value_word g w t : value_at g w t -> is_rule w = false.
Proof. intros []; reflexivity. Qed.

Section ReadOnly.
  Context {V S : Type}.
  Variables (hv : V -> hnode -> S -> M (option V * S)) (tv : V -> node -> S -> option V * S) (h : heap).
  Hypothesis Same : forall v n t s, stands (view h) n t -> hv v n s h = (h, Ok (tv v t s)).

  Lemma ro_part v p s : h_visit_part hv v p s h = (h, outcome (walk_part tv v p s)).
  Proof.
    unfold h_visit_part, walk_part. rewrite (mbind_ok _ _ _ _ _ (Same v _ _ s (st_part _ p))).
    destruct (tv v (node_of_part p) s) as [[v'|] s']; cbn [fst snd]; [|reflexivity]. destruct p; reflexivity.
  Qed.
  Lemma ro_parts v a ps : nth_error h a = Some (CParts ps) -> forall ps2 ps1 s, ps = ps1 ++ ps2 ->
    h_visit_parts hv v a (List.length ps2) (List.length ps1) s h = (h, outcome (wfor (walk_part tv v) ps2 s)).
  Proof.
    intros G. induction ps2 as [|p ps2 IH]; intros ps1 s E; [reflexivity|]. cbn [List.length h_visit_parts wfor].
    rewrite (mbind_ok _ _ _ _ _ (get_ok _ _ _ G)). rewrite E, nth_error_app2, Nat.sub_diag by auto. cbn [nth_error].
    rewrite run_bind, ro_part. destruct (walk_part tv v p s) as [s'|m s']; cbn [outcome wbind]; [|reflexivity].
    specialize (IH (ps1 ++ [p]) s'). rewrite app_length, Nat.add_1_r in IH. apply IH. rewrite <- app_assoc. exact E.
  Qed.
  Lemma ro_op v o t s : op_at (view h) o t -> h_visit_op hv v o s h = (h, outcome (walk_op tv v t s)).
  Proof.
    intros O. unfold h_visit_op, walk_op. rewrite (mbind_ok _ _ _ _ _ (Same v _ _ s (st_op _ _ _ O))).
    destruct (tv v (node_of_op t) s) as [[v'|] s']; cbn [fst snd]; [|reflexivity].
    destruct o, t; cbn in O; try contradiction; try reflexivity.
    rewrite (mbind_ok _ _ _ _ _ (get_ok _ _ _ O)). exact (ro_parts v' _ _ O ps [] s' eq_refl).
  Qed.
  Lemma ro_each {A} (P : word -> A -> Prop) (wk : word -> S -> M S) (tk : A -> S -> wout S) xs :
    (forall w t s, P w t -> wk w s h = (h, outcome (tk t s))) ->
    forall ws2 ts ws1 s, slice_at (view h) xs (ws1 ++ ws2) -> Forall2 P ws2 ts ->
    h_visit_each wk xs (List.length ws2) (List.length ws1) s h = (h, outcome (wfor tk ts s)).
  Proof.
    intros E. induction ws2 as [|w ws2 IH]; intros ts ws1 s Sl F; inversion F as [|? t ? ts' P1 F']; subst; [reflexivity|]. cbn [List.length h_visit_each wfor].
    assert (A1 : at_ xs (List.length ws1) h = (h, Ok w)) by (eapply at_ok; [apply sub_refl|exact Sl|]; rewrite nth_error_app2, Nat.sub_diag by auto; reflexivity).
    rewrite (mbind_ok _ _ _ _ _ A1). rewrite run_bind, (E _ _ _ P1). destruct (tk t s) as [s'|m s']; cbn [outcome wbind]; [|reflexivity].
    specialize (IH ts' (ws1 ++ [w]) s'). rewrite <- app_assoc, app_length in IH. cbn [List.length app] in IH. rewrite Nat.add_1_r in IH. apply IH; assumption.
  Qed.
  Lemma ro_value t : forall fuel v w s, height t <= fuel -> value_at (view h) w t -> h_visit_value hv fuel v w s h = (h, outcome (walk_value tv v t s)).
  Proof.
    induction t as [x IH|e|z|] using value_ind'; intros [|fuel] v w s Hf Vw; try (cbn in Hf; lia); cbn [h_visit_value walk_value]; rewrite (value_word _ _ _ Vw);
      rewrite (mbind_ok _ _ _ _ _ (Same v _ _ s (st_value _ _ _ Vw)));
      match goal with |- context [tv v ?n s] => destruct (tv v n s) as [[v'|] s'] end; cbn [fst snd]; try reflexivity; inversion Vw; subst; try reflexivity.
    rewrite (mbind_ok _ _ _ _ _ (get_sexpr_ok _ _ _ H0)). rewrite run_bind, (ro_op v' (h_op c) (s_op x)) by assumption.
    destruct (walk_op tv v' (s_op x) s') as [s2|m s2]; cbn [outcome wbind]; [|reflexivity].
    rewrite (mbind_ok _ _ _ _ _ (get_sexpr_ok _ _ _ H0)).
    assert (L : sl_len (h_args c) = List.length ws) by (match goal with E : slice_at _ (h_args c) ws |- _ => apply E end). rewrite L.
    eapply (ro_each (fun w t => value_at (view h) w t /\ In t (s_args x)) _ _ (h_args c)) with (ws1 := []); [|assumption|].
    - intros w0 t0 s0 [V0 I0]. pose proof (proj1 (Forall_forall _ _) IH _ I0) as IH0. pose proof (proj1 (Forall_forall _ _) (heights _ _ Hf) _ I0). auto.
    - apply Forall2_in. assumption.
  Qed.
  Lemma ro_rule r fuel v w s : rule_height r <= fuel -> rule_at (view h) w r -> h_visit_rule hv fuel v w s h = (h, outcome (walk_rule tv v r s)).
  Proof.
    intros Hf R. pose proof R as (p & c & -> & G & Vm & _ & _ & Vr). unfold h_visit_rule, walk_rule. cbn [is_rule negb]. rewrite (mbind_ok _ _ _ _ _ (Same v _ _ s (st_rule _ _ _ R))).
    destruct (tv v (NRule r) s) as [[v'|] s']; cbn [fst snd]; [|reflexivity]. unfold rule_height in Hf.
    rewrite (mbind_ok _ _ _ _ _ (get_rule_ok _ _ _ G)). rewrite run_bind, (ro_value (r_match r)) by (auto; lia).
    destruct (walk_value tv v' (r_match r) s') as [s2|m s2]; cbn [outcome wbind]; [|reflexivity].
    rewrite (mbind_ok _ _ _ _ _ (get_rule_ok _ _ _ G)). rewrite (ro_value (r_result r)) by (auto; lia). reflexivity.
  Qed.
  Lemma ro_file F fuel v p s : file_height F <= fuel -> file_at (view h) p F -> h_visit_file hv fuel v (Some p) s h = (h, outcome (walk tv v (NFile F) s)).
  Proof.
    intros Hf R. unfold h_visit_file, walk. rewrite (mbind_ok _ _ _ _ _ (Same v _ _ s (st_file _ _ _ R))).
    destruct (tv v (NFile F) s) as [[v'|] s']; cbn [fst snd]; [|reflexivity]. destruct R as (sl & ws & G & Sl & R).
    rewrite (mbind_ok _ _ _ _ _ (get_ok _ _ _ G)). rewrite (proj1 Sl).
    eapply (ro_each (fun w r => rule_at (view h) w r /\ rule_height r <= fuel) _ _ sl) with (ws1 := []); [|assumption|].
    - intros w0 t0 s0 [V0 I0]. apply ro_rule; assumption.
    - pose proof (heights_le _ _ Hf) as Hh. clear -R Hh. induction R; inversion Hh; subst; constructor; auto.
  Qed.
  Lemma ro_walk n t fuel v s : stands (view h) n t -> node_height t <= fuel -> h_Walk hv fuel v n s h = (h, outcome (walk tv v t s)).
  Proof.
    intros N Hf. destruct N as [p F H|w r H|w x H|o x H|p].
    - apply ro_file; assumption.
    - cbn [h_Walk]. pose proof H as (p & c & -> & _). apply ro_rule; assumption.
    - assert (E : h_Walk hv fuel v (HWord w) s = h_visit_value hv fuel v w s) by (inversion H; reflexivity). rewrite E.
      rewrite (ro_value x) by (try assumption; destruct x; exact Hf). destruct x; reflexivity.
    - cbn [h_Walk]. rewrite (ro_op _ _ _ _ H). destruct x; [reflexivity..|]. unfold walk_op. cbn [node_of_op walk walk_value node_of_value]. destruct (tv v NNil s) as [[v'|] s']; reflexivity.
    - cbn [h_Walk]. rewrite ro_part. unfold walk_part. destruct p; cbn [node_of_part walk walk_value node_of_value]; unfold walk_op, walk_part; cbn [node_of_part node_of_op]; match goal with |- context [tv v ?n s] => destruct (tv v n s) as [[v'|] s'] end; reflexivity.
  Qed.
End ReadOnly.

(** Editing in place. *)
Section Edit.
  Variable e : attrs -> attrs.
  Notation vis := (h_inspector (editing e)).
  Notation times l p c := (Nat.iter (count_occ Nat.eq_dec l p) (edit_struct e) c).
  Lemma edited_nil h : edited e [] h h.
  Proof. intros p. cbn. destruct (nth_error h p) as [[]|]; reflexivity. Qed.
  Lemma times_op n c : h_op (Nat.iter n (edit_struct e) c) = h_op c.
  Proof. induction n; cbn; auto. Qed.
  Lemma times_args n c : h_args (Nat.iter n (edit_struct e) c) = h_args c.
  Proof. induction n; cbn; auto. Qed.
  Lemma edited_step l h h' p c : edited e l h h' -> nth_error h p = Some (CSExpr c) ->
    edited e (l ++ [p]) h (put p (CSExpr (edit_struct e (times l p c))) h').
  Proof.
    intros E G q. pose proof (E p) as Ep. rewrite G in Ep. rewrite put_spec by (apply nth_error_Some; congruence). rewrite count_occ_app. cbn [count_occ].
    destruct (Nat.eqb_spec q p) as [->|N].
    - rewrite G. destruct (Nat.eq_dec p p); [|contradiction]. rewrite Nat.add_1_r. reflexivity.
    - destruct (Nat.eq_dec p q); [congruence|]. rewrite Nat.add_0_r. apply E.
  Qed.
  Lemma edited_other l h h' p c : edited e l h h' -> nth_error h p = Some c -> (forall s, c <> CSExpr s) -> nth_error h' p = Some c.
  Proof. intros E G N. rewrite (E p), G. destruct c; try reflexivity. destruct (N s eq_refl). Qed.
  Lemma edited_sexpr l h h' p c : edited e l h h' -> nth_error h p = Some (CSExpr c) -> nth_error h' p = Some (CSExpr (times l p c)).
  Proof. intros E G. rewrite (E p), G. reflexivity. Qed.
  Lemma edited_slice l h h' sl ws : edited e l h h' -> slice_at (view h) sl ws -> slice_at (view h') sl ws.
  Proof.
    intros E [L [->|(a & b & G & A)]]; split; auto. right. exists a, b. split; [|exact A]. eapply edited_other; [exact E|exact G|discriminate].
  Qed.
  Lemma edited_at l h h' sl ws i w : edited e l h h' -> slice_at (view h) sl ws -> nth_error ws i = Some w -> at_ sl i h' = (h', Ok w).
  Proof. intros E Sl N. eapply at_ok; [apply sub_refl|eapply edited_slice; eassumption|exact N]. Qed.

  Lemma vis_part k h' p : p <> PNilPart -> h_visit_part vis tt p k h' = (h', Ok k).
  Proof. destruct p; try reflexivity. congruence. Qed.
  Lemma ed_parts k h' a ps : nth_error h' a = Some (CParts ps) -> ~ In PNilPart ps -> forall ps2 ps1, ps = ps1 ++ ps2 ->
    h_visit_parts vis tt a (List.length ps2) (List.length ps1) k h' = (h', Ok k).
  Proof.
    intros G N. induction ps2 as [|p ps2 IH]; intros ps1 E; [reflexivity|]. cbn [List.length h_visit_parts].
    rewrite (mbind_ok _ _ _ _ _ (get_ok _ _ _ G)). rewrite E, nth_error_app2, Nat.sub_diag by auto. cbn [nth_error].
    assert (P : p <> PNilPart) by (intros ->; apply N; rewrite E; apply in_or_app; right; left; reflexivity).
    rewrite (mbind_ok _ _ _ _ _ (vis_part k h' p P)). specialize (IH (ps1 ++ [p])). rewrite app_length, Nat.add_1_r in IH. apply IH. rewrite <- app_assoc. exact E.
  Qed.
  Lemma ed_op l h h' o t k : op_at (view h) o t -> nil_free (node_of_op t) -> edited e l h h' -> h_visit_op vis tt o k h' = (h', Ok k).
  Proof.
    intros O N E. unfold h_visit_op. assert (R : vis tt (HOp o) k h' = (h', Ok (Some tt, k))) by (destruct o; reflexivity). rewrite (mbind_ok _ _ _ _ _ R). cbn [fst snd].
    destruct o, t; cbn in O; try contradiction; [reflexivity| |].
    - pose proof (edited_other _ _ _ _ _ E O ltac:(discriminate)) as G. rewrite (mbind_ok _ _ _ _ _ (get_ok _ _ _ G)). apply (ed_parts k h' _ _ G) with (ps1 := []); [|reflexivity].
      intros I. apply N. apply occ_below with NNil; [|constructor]. cbn [children node_of_op]. change NNil with (node_of_part PNilPart). apply in_map. exact I.
    - destruct N. constructor.
  Qed.
  Lemma nil_free_child m c : nil_free m -> In c (children m) -> nil_free c.
  Proof. intros N I O. apply N. eapply occ_below; eassumption. Qed.

  Lemma ed_each {A} (P : word -> A -> list nat -> Prop) h (wk : word -> nat -> M nat) xs :
    (forall w t l l0 h' k, P w t l -> edited e l0 h h' -> exists h'', wk w k h' = (h'', Ok (k + List.length l)) /\ edited e (l0 ++ l) h h'') ->
    forall ws2 ts ls ws1 l0 h' k, slice_at (view h) xs (ws1 ++ ws2) -> Forall2 (fun w tl => P w (fst tl) (snd tl)) ws2 (combine ts ls) -> List.length ts = List.length ls ->
    edited e l0 h h' ->
    exists h'', h_visit_each wk xs (List.length ws2) (List.length ws1) k h' = (h'', Ok (k + List.length (List.concat ls))) /\ edited e (l0 ++ List.concat ls) h h''.
  Proof.
    intros W. induction ws2 as [|w ws2 IH]; intros ts ls ws1 l0 h' k Sl F L E; destruct ts as [|t ts], ls as [|l ls]; try discriminate; cbn [combine] in F; inversion F as [|? ? ? ? P1 F']; subst.
    - exists h'. cbn. rewrite Nat.add_0_r, app_nil_r. split; [reflexivity|exact E].
    - cbn [List.length h_visit_each]. assert (A1 : at_ xs (List.length ws1) h' = (h', Ok w)) by (eapply edited_at; [exact E|exact Sl|]; rewrite nth_error_app2, Nat.sub_diag by auto; reflexivity).
      rewrite (mbind_ok _ _ _ _ _ A1). cbn [fst snd] in P1. destruct (W w t l l0 h' k P1 E) as (h1 & R1 & E1). rewrite (mbind_ok _ _ _ _ _ R1).
      destruct (IH ts ls (ws1 ++ [w]) (l0 ++ l) h1 (k + List.length l)) as (h2 & R2 & E2).
      + rewrite <- app_assoc. exact Sl.
      + exact F'.
      + cbn in L. congruence.
      + exact E1.
      + exists h2. rewrite app_length, Nat.add_1_r in R2. cbn [List.concat]. rewrite app_length, app_assoc, Nat.add_assoc. split; [exact R2|exact E2].
  Qed.
  Lemma zip {A} (P : word -> A -> list nat -> Prop) ws (ts : list A) ls (Q : word -> A -> Prop) (R : word -> list nat -> Prop) :
    Forall2 Q ws ts -> Forall2 R ws ls -> (forall w t l, In t ts -> Q w t -> R w l -> P w t l) ->
    Forall2 (fun w tl => P w (fst tl) (snd tl)) ws (combine ts ls) /\ List.length ts = List.length ls.
  Proof.
    intros F. revert ls. induction F as [|w t ws ts Q1 F IH]; intros ls G H; inversion G as [|? l ? ls' R1 G']; subst; [split; [constructor|reflexivity]|].
    destruct (IH ls' G') as [I1 I2]; [intros; apply H; [right|..]; assumption|]. cbn. split; [|congruence]. constructor; [|exact I1]. cbn. apply H; auto. left. reflexivity.
  Qed.
  Lemma ed_value h t : forall fuel w l l0 h' k, height t <= fuel -> value_at (view h) w t -> met (view h) w l -> nil_free (node_of_value t) -> edited e l0 h h' ->
    exists h'', h_visit_value vis fuel tt w k h' = (h'', Ok (k + List.length l)) /\ edited e (l0 ++ l) h h''.
  Proof.
    induction t as [x IH|ex|z|] using value_ind'; intros [|fuel] w l l0 h' k Hf Vw Mt N E; try (cbn in Hf; lia); cbn [h_visit_value]; inversion Vw; subst; inversion Mt; subst;
      try (exists h'; rewrite app_nil_r; cbn; rewrite Nat.add_0_r; split; [reflexivity|exact E]).
    match goal with A : nth_error h p = Some (CSExpr c), B : nth_error h p = Some (CSExpr ?c1) |- _ => rewrite A in B; injection B as <-; rename A into G end.
    match goal with A : slice_at _ (h_args c) ws, B : slice_at _ (h_args c) ?w1 |- _ => pose proof (slice_at_fun _ _ _ _ A B) as <-; clear B; rename A into Sl end.
    pose proof (edited_sexpr _ _ _ _ _ E G) as G1. set (c1 := times l0 p c) in *.
    assert (V : vis tt (HWord (WSExpr (Some p))) k h' = (put p (CSExpr (edit_struct e c1)) h', Ok (Some tt, Datatypes.S k))).
    { unfold h_inspector, editing. rewrite run_bind, (mbind_ok _ _ _ _ _ (get_sexpr_ok _ _ _ G1)). rewrite run_bind, store_ok by (apply nth_error_Some; congruence). reflexivity. }
    cbn [is_rule]. rewrite (mbind_ok _ _ _ _ _ V). cbn [fst snd]. pose proof (edited_step _ _ _ _ _ E G) as E1. fold c1 in E1.
    pose proof (edited_sexpr _ _ _ _ _ E1 G) as G2. rewrite (mbind_ok _ _ _ _ _ (get_sexpr_ok _ _ _ G2)). rewrite times_op.
    assert (O : h_visit_op vis tt (h_op c) (Datatypes.S k) (put p (CSExpr (edit_struct e c1)) h') = (put p (CSExpr (edit_struct e c1)) h', Ok (Datatypes.S k))).
    { eapply ed_op; [eassumption| |exact E1]. eapply nil_free_child; [exact N|]. left. reflexivity. }
    rewrite (mbind_ok _ _ _ _ _ O). rewrite (mbind_ok _ _ _ _ _ (get_sexpr_ok _ _ _ G2)). rewrite times_args, (proj1 Sl).
    match goal with A : Forall2 (value_at _) ws _, B : Forall2 (met _) ws ls |- _ =>
      destruct (zip (fun w t l => value_at (view h) w t /\ met (view h) w l /\ In t (s_args x)) _ _ _ _ _ A B) as [Z1 Z2]; [auto|] end.
    destruct (ed_each (fun w t l => value_at (view h) w t /\ met (view h) w l /\ In t (s_args x)) h (h_visit_value vis fuel tt) (h_args c)
      ltac:(intros w0 t0 l2 l3 h3 k3 (V0 & M0 & I0) E3; exact (proj1 (Forall_forall _ _) IH _ I0 fuel w0 l2 l3 h3 k3 (proj1 (Forall_forall _ _) (heights _ _ Hf) _ I0) V0 M0
         (nil_free_child _ _ N (or_intror (in_map node_of_value _ _ I0))) E3))
      ws _ _ [] _ _ (Datatypes.S k) Sl Z1 Z2 E1) as (h2 & R2 & E2).
    exists h2. rewrite <- app_assoc in E2. cbn [app] in E2. split; [|exact E2]. cbn [List.length] in *. rewrite <- plus_n_Sm. exact R2.
  Qed.
  Lemma ed_rule h r fuel w l l0 h' k : rule_height r <= fuel -> rule_at (view h) w r -> met_rule (view h) w l -> nil_free (NRule r) -> edited e l0 h h' ->
    exists h'', h_visit_rule vis fuel tt w k h' = (h'', Ok (k + List.length l)) /\ edited e (l0 ++ l) h h''.
  Proof.
    intros Hf (p & c & -> & G & Vm & _ & _ & Vr) (p1 & c1 & lm & lr & E1 & G1 & Mm & Mr & ->) N E. injection E1 as <-. rewrite G in G1. injection G1 as <-. unfold rule_height in Hf.
    unfold h_visit_rule. cbn [is_rule negb]. assert (R : vis tt (HWord (WRule (Some p))) k h' = (h', Ok (Some tt, k))) by reflexivity. rewrite (mbind_ok _ _ _ _ _ R). cbn [fst snd].
    rewrite (mbind_ok _ _ _ _ _ (get_rule_ok _ _ _ (edited_other _ _ _ _ _ E G ltac:(discriminate)))).
    destruct (ed_value h (r_match r) fuel _ _ _ _ k ltac:(lia) Vm Mm (nil_free_child _ _ N (or_introl eq_refl)) E) as (h1 & R1 & E1). rewrite (mbind_ok _ _ _ _ _ R1).
    rewrite (mbind_ok _ _ _ _ _ (get_rule_ok _ _ _ (edited_other _ _ _ _ _ E1 G ltac:(discriminate)))).
    destruct (ed_value h (r_result r) fuel _ _ _ _ (k + List.length lm) ltac:(lia) Vr Mr (nil_free_child _ _ N (or_intror (or_introl eq_refl))) E1) as (h2 & R2 & E2).
    exists h2. rewrite app_length, app_assoc, Nat.add_assoc. split; assumption.
  Qed.
  Lemma ed_file h F fuel f l k : file_height F <= fuel -> file_at (view h) f F -> met_file (view h) f l -> nil_free (NFile F) ->
    exists h', h_visit_file vis fuel tt (Some f) k h = (h', Ok (k + List.length l)) /\ edited e l h h'.
  Proof.
    intros Hf (sl & ws & G & Sl & R) (sl1 & ws1 & ls & G1 & Sl1 & Mt & ->) N. unfold view in *. rewrite G in G1. injection G1 as <-. pose proof (slice_at_fun _ _ _ _ Sl Sl1) as <-.
    unfold h_visit_file. assert (V : vis tt (HFile (Some f)) k h = (h, Ok (Some tt, k))) by reflexivity. rewrite (mbind_ok _ _ _ _ _ V). cbn [fst snd].
    rewrite (mbind_ok _ _ _ _ _ (get_ok _ _ _ G)). rewrite (proj1 Sl).
    destruct (zip (fun w t l => rule_at (view h) w t /\ met_rule (view h) w l /\ In t (f_rules F)) _ _ _ _ _ R Mt) as [Z1 Z2]; [auto|].
    destruct (ed_each (fun w t l => rule_at (view h) w t /\ met_rule (view h) w l /\ In t (f_rules F)) h (h_visit_rule vis fuel tt) sl
      ltac:(intros w0 t0 l2 l3 h3 k3 (V0 & M0 & I0) E3; exact (ed_rule h t0 fuel w0 l2 l3 h3 k3 (proj1 (Forall_forall _ _) (heights_le _ _ Hf) _ I0) V0 M0
         (nil_free_child _ _ N (in_map NRule _ _ I0)) E3))
      ws _ _ [] [] h k Sl Z1 Z2 (edited_nil h)) as (h2 & R2 & E2).
    exists h2. split; assumption.
  Qed.
End Edit.

(** Every tree has its list of addresses. *)
Lemma met_exists g t : forall w, value_at g w t -> nil_free (node_of_value t) -> exists l, met g w l.
Proof.
  induction t as [x IH|ex|z|] using value_ind'; intros w V N; inversion V; subst; [|eexists; constructor..|destruct N; constructor].
  assert (L : exists ls, Forall2 (met g) ws ls).
  { match goal with A : Forall2 _ ws (s_args x) |- _ => rename A into F end.
    assert (Nf : Forall (fun t => nil_free (node_of_value t)) (s_args x)) by (apply Forall_forall; intros t I; exact (nil_free_child _ _ N (or_intror (in_map node_of_value _ _ I)))).
    clear -F IH Nf. induction F as [|w t ws ts V F IHF]; [exists []; constructor|]. inversion IH; subst. inversion Nf; subst.
    destruct (IHF H2 H4) as [ls Hls]. destruct (H1 w V H3) as [l Hl]. exists (l :: ls). constructor; assumption. }
  destruct L as [ls Hls]. eexists. econstructor; eassumption.
Qed.
Lemma met_rule_exists g w r : rule_at g w r -> nil_free (NRule r) -> exists l, met_rule g w l.
Proof.
  intros (p & c & -> & G & Vm & _ & _ & Vr) N.
  destruct (met_exists _ _ _ Vm (nil_free_child _ _ N (or_introl eq_refl))) as [lm Mm]. destruct (met_exists _ _ _ Vr (nil_free_child _ _ N (or_intror (or_introl eq_refl)))) as [lr Mr].
  exists (lm ++ lr), p, c, lm, lr. auto.
Qed.
Lemma met_file_exists g f F : file_at g f F -> nil_free (NFile F) -> exists l, met_file g f l.
Proof.
  intros (sl & ws & G & Sl & R) N.
  assert (L : exists ls, Forall2 (met_rule g) ws ls).
  { assert (Nf : Forall (fun r => nil_free (NRule r)) (f_rules F)) by (apply Forall_forall; intros t I; exact (nil_free_child _ _ N (in_map NRule _ _ I))).
    clear -R Nf. induction R as [|w r ws rs V R IHR]; [exists []; constructor|]. inversion Nf; subst. destruct (IHR H2) as [ls Hls]. destruct (met_rule_exists _ _ _ V H1) as [l Hl].
    exists (l :: ls). constructor; assumption. }
  destruct L as [ls Hls]. exists (List.concat ls), sl, ws, ls. auto.
Qed.

(** Editing as many times as an address is met is editing once: if editing twice is, and if it is met once. *)
Lemma times_once e l p c : (forall c, edit_struct e (edit_struct e c) = edit_struct e c) ->
  In p l -> Nat.iter (count_occ Nat.eq_dec l p) (edit_struct e) c = edit_struct e c.
Proof.
  intros Once I. apply (count_occ_In Nat.eq_dec) in I. destruct (count_occ Nat.eq_dec l p) as [|n]; [lia|]. clear I. induction n as [|n IH]; [reflexivity|]. cbn [Nat.iter nat_rect] in *.
  change (Nat.iter (S (S n)) (edit_struct e) c) with (edit_struct e (Nat.iter (S n) (edit_struct e) c)). rewrite IH. apply Once.
Qed.
Lemma times_NoDup e l p c : NoDup l -> In p l -> Nat.iter (count_occ Nat.eq_dec l p) (edit_struct e) c = edit_struct e c.
Proof.
  intros N I. apply (count_occ_In Nat.eq_dec) in I. pose proof (proj1 (NoDup_count_occ Nat.eq_dec l) N p) as L.
  replace (count_occ Nat.eq_dec l p) with 1 by lia. reflexivity.
Qed.

(** What the trees are after an edit. *)
Section After.
  Variables (e : attrs -> attrs) (l : list nat) (h h' : heap).
  Hypothesis E : edited e l h h'.
  Lemma other p c : view h p = Some c -> (forall s, c <> CSExpr s) -> view h' p = Some c.
  Proof. apply (edited_other e l h h' p c E). Qed.
  Lemma after_expr p o : expr_at (view h) p o -> expr_at (view h') p o.
  Proof. destruct p, o; cbn; auto. intros G. apply (other _ _ G). discriminate. Qed.
  Lemma after_op x o : op_at (view h) x o -> op_at (view h') x o.
  Proof. destruct x, o; cbn; auto. intros G. apply (other _ _ G). discriminate. Qed.
  Lemma after_slice sl ws : slice_at (view h) sl ws -> slice_at (view h') sl ws.
  Proof. exact (edited_slice e l h h' sl ws E). Qed.
  Lemma after_keep b p o : expr_at (view h) p o -> expr_at (view h') (keep b p) (keep b o).
  Proof. intros H. destruct b; cbn; [apply after_expr; exact H|exact I]. Qed.
  (** Trees that share no S-expression with what was edited. *)
  Lemma apart_value t : forall w l2, value_at (view h) w t -> met (view h) w l2 -> (forall p, In p l2 -> ~ In p l) -> value_at (view h') w t.
  Proof.
    induction t as [x IH|ex|z|] using value_ind'; intros w l2 V Mt D; inversion V; subst; [|apply at_expr; match goal with A : view h _ = Some (CExpr _) |- _ => apply (other _ _ A) end; discriminate|constructor|constructor].
    inversion Mt; subst.
    match goal with A : view h p = Some (CSExpr c), B : view h p = Some (CSExpr ?c1) |- _ => rewrite A in B; injection B as <-; rename A into G end.
    match goal with A : slice_at _ (h_args c) ws, B : slice_at _ (h_args c) ?w1 |- _ => pose proof (slice_at_fun _ _ _ _ A B) as <-; clear B; rename A into Sl end.
    assert (G' : view h' p = Some (CSExpr c)).
    { pose proof (edited_sexpr _ _ _ _ _ _ E G) as G'. rewrite (proj1 (count_occ_not_In Nat.eq_dec l p)) in G' by (apply D; left; reflexivity). exact G'. }
    eapply at_sexpr; try eassumption; [apply after_op; assumption|apply after_expr; assumption|apply after_expr; assumption|apply after_slice; exact Sl|].
    match goal with A : Forall2 (value_at _) ws _, B : Forall2 (met _) ws ls |- _ => rename A into F; rename B into Fm end.
    assert (Dl : Forall (fun l2 => forall p, In p l2 -> ~ In p l) ls).
    { apply Forall_forall. intros l2 I q Q. apply D. right. apply in_concat. exists l2. auto. }
    clear -IH F Fm Dl. revert ls Fm Dl. induction F as [|w t ws ts V F IHF]; intros ls Fm Dl; inversion Fm; subst; constructor; inversion IH; subst; inversion Dl; subst; eauto.
  Qed.
  Lemma apart_rule w r l2 : rule_at (view h) w r -> met_rule (view h) w l2 -> (forall p, In p l2 -> ~ In p l) -> rule_at (view h') w r.
  Proof.
    intros (p & c & -> & G & Vm & Vc & Eb & Vr) (p1 & c1 & lm & lr & E1 & G1 & Mm & Mr & ->) D. injection E1 as <-. rewrite G in G1. injection G1 as <-.
    exists p, c. split; [reflexivity|]. split; [apply (other _ _ G); discriminate|]. split; [eapply apart_value; [exact Vm|exact Mm|intros q Q; apply D, in_or_app; auto]|].
    split; [apply after_expr; exact Vc|]. split; [exact Eb|]. eapply apart_value; [exact Vr|exact Mr|intros q Q; apply D, in_or_app; auto].
  Qed.
  Lemma apart_file f F l2 : file_at (view h) f F -> met_file (view h) f l2 -> (forall p, In p l2 -> ~ In p l) -> file_at (view h') f F.
  Proof.
    intros (sl & ws & G & Sl & R) (sl1 & ws1 & ls & G1 & Sl1 & Mt & ->) D. rewrite G in G1. injection G1 as <-. pose proof (slice_at_fun _ _ _ _ Sl Sl1) as <-.
    exists sl, ws. split; [apply (other _ _ G); discriminate|]. split; [apply after_slice; exact Sl|].
    assert (Dl : Forall (fun l2 => forall p, In p l2 -> ~ In p l) ls) by (apply Forall_forall; intros l2 I q Q; apply D, in_concat; exists l2; auto).
    clear -E R Mt Dl. revert ls Mt Dl. induction R as [|w r ws rs V R IHR]; intros ls Fm Dl; inversion Fm; subst; constructor; inversion Dl; subst; eauto using apart_rule.
  Qed.
  (** Trees all of whose S-expressions were edited: once, or as if once. *)
  Hypothesis Once : forall p c, In p l -> Nat.iter (count_occ Nat.eq_dec l p) (edit_struct e) c = edit_struct e c.
  Lemma there_at g p o : expr_at g p o -> there p = there o.
  Proof. destruct p, o; cbn; tauto. Qed.
  Lemma after_value t : forall w l2, value_at (view h) w t -> met (view h) w l2 -> incl l2 l -> value_at (view h') w (edit_value e t).
  Proof.
    induction t as [x IH|ex|z|] using value_ind'; intros w l2 V Mt D; inversion V; subst; [|apply at_expr; match goal with A : view h _ = Some (CExpr _) |- _ => apply (other _ _ A) end; discriminate|constructor|constructor].
    inversion Mt; subst.
    match goal with A : view h p = Some (CSExpr c), B : view h p = Some (CSExpr ?c1) |- _ => rewrite A in B; injection B as <-; rename A into G end.
    match goal with A : slice_at _ (h_args c) ws, B : slice_at _ (h_args c) ?w1 |- _ => pose proof (slice_at_fun _ _ _ _ A B) as <-; clear B; rename A into Sl end.
    assert (G' : view h' p = Some (CSExpr (edit_struct e c))).
    { pose proof (edited_sexpr _ _ _ _ _ _ E G) as G'. rewrite Once in G' by (apply D; left; reflexivity). exact G'. }
    assert (A : h_attrs_of c = attrs_of x).
    { unfold h_attrs_of, attrs_of. f_equal; try assumption; eapply there_at; eassumption. }
    cbn [edit_value]. eapply at_sexpr; [exact G'|..]; unfold edit_struct; cbn [h_binding h_op h_type h_auxint h_aux h_args h_ellipsis h_trailing s_binding s_op s_type s_auxint s_aux s_args s_ellipsis s_trailing];
      rewrite ?A; try reflexivity; [apply after_op; assumption|apply after_keep; assumption|apply after_keep; assumption|apply after_slice; exact Sl|].
    match goal with A : Forall2 (value_at _) ws _, B : Forall2 (met _) ws ls |- _ => rename A into F; rename B into Fm end.
    assert (Dl : Forall (fun l2 => incl l2 l) ls).
    { apply Forall_forall. intros l2 I q Q. apply D. right. apply in_concat. exists l2. auto. }
    clear -IH F Fm Dl. revert ls Fm Dl. induction F as [|w t ws ts V F IHF]; intros ls Fm Dl; inversion Fm; subst; constructor; inversion IH; subst; inversion Dl; subst; eauto.
  Qed.
  Lemma after_rule w r l2 : rule_at (view h) w r -> met_rule (view h) w l2 -> incl l2 l -> rule_at (view h') w (edit_rule e r).
  Proof.
    intros (p & c & -> & G & Vm & Vc & Eb & Vr) (p1 & c1 & lm & lr & E1 & G1 & Mm & Mr & ->) D. injection E1 as <-. rewrite G in G1. injection G1 as <-.
    exists p, c. split; [reflexivity|]. split; [apply (other _ _ G); discriminate|]. split; [eapply after_value; [exact Vm|exact Mm|intros q Q; apply D, in_or_app; auto]|].
    split; [apply after_expr; exact Vc|]. split; [exact Eb|]. eapply after_value; [exact Vr|exact Mr|intros q Q; apply D, in_or_app; auto].
  Qed.
  Lemma after_file f F l2 : file_at (view h) f F -> met_file (view h) f l2 -> incl l2 l -> file_at (view h') f (edit_file e F).
  Proof.
    intros (sl & ws & G & Sl & R) (sl1 & ws1 & ls & G1 & Sl1 & Mt & ->) D. rewrite G in G1. injection G1 as <-. pose proof (slice_at_fun _ _ _ _ Sl Sl1) as <-.
    exists sl, ws. split; [apply (other _ _ G); discriminate|]. split; [apply after_slice; exact Sl|].
    assert (Dl : Forall (fun l2 => incl l2 l) ls) by (apply Forall_forall; intros l2 I q Q; apply D, in_concat; exists l2; auto).
    unfold edit_file; cbn [f_rules].
    clear -E Once R Mt Dl. revert ls Mt Dl. induction R as [|w r ws rs V R IHR]; intros ls Fm Dl; inversion Fm; subst; constructor; inversion Dl; subst; eauto using after_rule.
  Qed.
End After.
