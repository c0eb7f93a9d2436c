(** Printing, generating, the feature tests and the end of an expansion in well-typed memory. *)
From Verif Require Import Text GoAst Ast Printer Smt Expand Heap HeapWalk HeapPrint SpecExpand SpecHeap SpecNil SpecTyped TreeFacts ExpandFacts HeapFacts HeapPrintFacts HeapNil TypedFacts.
From Coq Require Import Arith Lia Bool.
Open Scope nat_scope.
Open Scope list_scope.

Lemma slice_of_at g P sl : slice_of g P sl -> exists ws, slice_at g sl ws /\ Forall P ws.
Proof.
  intros [L S]. destruct (Nat.eq_dec (sl_len sl) 0) as [Z|Z]; [exists []; split; [split; [exact Z|left; reflexivity]|constructor]|]. destruct S as [Z'|(l & E & B & F)]; [lia|].
  exists (firstn (sl_len sl) (skipn (sl_off sl) l)). split.
  - split; [rewrite firstn_length, skipn_length; lia|]. right. exists (firstn (sl_off sl) l), (skipn (sl_len sl) (skipn (sl_off sl) l)).
    rewrite firstn_skipn, firstn_skipn. split; [exact E|]. rewrite firstn_length. lia.
  - apply Forall_forall. intros x Hx. rewrite Forall_forall in F. apply F. eapply in_skipn, in_firstn, Hx.
Qed.
Lemma op_of_typed g s : typed_cell g (CSExpr s) -> exists o, op_at g (h_op s) o.
Proof. intros (O & _). destruct (h_op s) as [c|a|]; [exists (Opcode c); reflexivity| |exists NilOp; exact I]. destruct (O a eq_refl) as [ps E]. exists (OpcodeParts ps). exact E. Qed.
Lemma expr_of_typed g p : expr_ptr g p -> exists o, expr_at g p o.
Proof. intros H. destruct p as [a|]; [|exists None; exact I]. destruct (H a eq_refl) as [e E]. exists (Some e). exact E. Qed.

Section Read.
  Variables (h : heap).
  Notation g := (view h).
  Hypothesis T : typed g.
  Let S : sub g (view h) := sub_refl g.

  Section W.
    Context {W : Type}.
    Variable write : W -> text -> W * option text.
    Definition dies {A} (m : M A) : Prop := exists x, nil_or_overflow x /\ m h = (h, Panic x).
    Lemma dies_bind {A B} (m : M A) (k : A -> M B) : dies m -> dies (mbind m k).
    Proof. intros (x & N & E). exists x. split; [exact N|]. rewrite (mbind_panic _ _ _ _ _ E). reflexivity. Qed.
    Lemma dies_after {A B} (m : M A) (k : A -> M B) a : m h = (h, Ok a) -> dies (k a) -> dies (mbind m k).
    Proof. intros E (x & N & X). exists x. split; [exact N|]. rewrite (mbind_ok _ _ _ _ _ E). exact X. Qed.
    Lemma dies_nil {A} : dies (@panics A nil_deref). Proof. exists nil_deref. split; [left|]; reflexivity. Qed.
    Lemma print_args n args : forall ws2 ws1, slice_at g args (ws1 ++ ws2) ->
      Forall (fun w => (exists v, value_at g w v /\ height v <= n) \/ (forall p, dies (hp_value write n w p))) ws2 ->
      (exists vs, Forall2 (value_at g) ws2 vs /\ Forall (fun v => height v <= n) vs) \/
      forall p, dies (hp_args write (hp_value write n) args (List.length ws2) (List.length ws1) p).
    Proof.
      induction ws2 as [|w ws2 IH]; intros ws1 Sl F; [left; exists []; split; constructor|]. inversion F as [|? ? Hw F']; subst. cbn [List.length hp_args].
      assert (A : at_ args (List.length ws1) h = (h, Ok w)) by (eapply at_ok; [exact S|exact Sl|]; rewrite nth_error_app2, Nat.sub_diag by auto; reflexivity).
      destruct Hw as [(v & V & Hv)|Hw].
      - specialize (IH (ws1 ++ [w])).
        rewrite <- app_assoc, app_length in IH. cbn [List.length app] in IH. rewrite Nat.add_1_r in IH. destruct (IH Sl F') as [(vs & Vs & Hs)|E].
        + left. exists (v :: vs). split; constructor; assumption.
        + right. intros p. eapply dies_after; [exact A|]. eapply dies_after; [exact (value_ok write g h S v n w _ Hv V)|apply E].
      - right. intros p. eapply dies_after; [exact A|]. apply dies_bind, Hw.
    Qed.
    Lemma print_value n : forall w, value_word g w -> (exists v, value_at g w v /\ height v <= n) \/ (forall p, dies (hp_value write n w p)).
    Proof.
      induction n as [|n IH]; intros w V; [right; intros p; exists stack_overflow; split; [right|]; reflexivity|]. destruct w as [[a|]|[a|]|x| |r]; cbn in V.
      - destruct (V a eq_refl) as [c G]. pose proof (T _ _ G) as Tc. destruct (op_of_typed _ _ Tc) as [o O]. destruct Tc as (_ & Xi & Xa & Sl).
        destruct (expr_of_typed _ _ Xi) as [ai Ei]. destruct (expr_of_typed _ _ Xa) as [ax Ex]. destruct (slice_of_at _ _ _ Sl) as (ws & Sw & Fw).
        assert (A : Forall (fun w => (exists v, value_at g w v /\ height v <= n) \/ (forall p, dies (hp_value write n w p))) ws) by (eapply Forall_impl; [|exact Fw]; exact IH).
        destruct (print_args n (h_args c) ws [] Sw A) as [(vs & Vs & Hs)|E].
        + left. exists (SExp (mkSExpr (h_binding c) o (h_type c) ai ax vs (h_ellipsis c) (h_trailing c))). split; [econstructor; cbn; eauto|]. cbn [height s_args]. apply le_n_S. clear -Hs. induction Hs; cbn; lia.
        + right. intros p. cbn [hp_value]. eapply dies_after; [exact (get_sexpr_ok _ _ _ G)|]. cbn zeta. eapply dies_after; [exact (op_ok write g h S _ _ _ O)|]. cbn zeta.
          eapply dies_after; [exact (opt_ok write g h S _ _ _ _ _ Ei)|]. eapply dies_after; [exact (opt_ok write g h S _ _ _ _ _ Ex)|]. apply dies_bind. rewrite (proj1 Sw). apply E.
      - right. intros p. apply dies_nil.
      - left. destruct (V a eq_refl) as [e G]. exists (EVal e). split; [constructor; exact G|cbn; lia].
      - right. intros p. apply dies_nil.
      - left. exists (Var x). split; [constructor|cbn; lia].
      - left. exists NilValue. split; [constructor|cbn; lia].
      - destruct V.
    Qed.
    Lemma print_rule n w : rule_word g w -> (exists r, rule_at g w r /\ rule_height r <= n) \/ (forall q p, w = WRule q -> dies (hp_rule write n q p)).
    Proof.
      destruct w as [| | | |[a|]]; try contradiction; intros V; [|right; intros q p [= <-]; apply dies_nil]. destruct (V a eq_refl) as [c G]. destruct (T _ _ G) as (Vm & Xc & Vr).
      destruct (expr_of_typed _ _ Xc) as [o Ec]. destruct (print_value n _ Vm) as [(m & Tm & Hm)|D].
      - destruct (print_value n _ Vr) as [(x & Tx & Hx)|D].
        + left. exists (mkRule m o (h_block c) x). split; [exists a, c; auto 10|unfold rule_height; cbn; lia].
        + right. intros q p [= <-]. cbn [hp_rule]. pose proof (get_rule_ok _ _ _ G) as R. eapply dies_after; [exact R|]. eapply dies_after; [exact (value_ok write g h S m n _ _ Hm Tm)|]. eapply dies_after; [exact R|].
          assert (C : forall p, exists p', (match h_cond c with None => ret p | Some _ => hp_expr write (h_cond c) (printf write (str " && ") p) end : M _) h = (h, Ok p')).
          { intros p0. destruct (h_cond c) as [y|], o as [e|]; cbn in Ec; try contradiction; eexists; [apply (expr_ok write g h S _ _ _ Ec)|reflexivity]. }
          match goal with |- dies (mbind (match _ with None => ret ?q | Some _ => _ end) _) => destruct (C q) as [p' C'] end. eapply dies_after; [exact C'|]. apply D.
      - right. intros q p [= <-]. cbn [hp_rule]. eapply dies_after; [exact (get_rule_ok _ _ _ G)|]. apply dies_bind, D.
    Qed.
    Lemma print_rules n sl : forall ws2 ws1, slice_at g sl (ws1 ++ ws2) -> Forall (rule_word g) ws2 ->
      (exists rs, Forall2 (rule_at g) ws2 rs /\ Forall (fun r => rule_height r <= n) rs) \/
      forall p, dies (hp_rules write n sl (List.length ws2) (List.length ws1) p).
    Proof.
      induction ws2 as [|w ws2 IH]; intros ws1 Sl F; [left; exists []; split; constructor|]. inversion F as [|? ? Hw F']; subst. cbn [List.length hp_rules].
      assert (A : at_ sl (List.length ws1) h = (h, Ok w)) by (eapply at_ok; [exact S|exact Sl|]; rewrite nth_error_app2, Nat.sub_diag by auto; reflexivity).
      destruct (print_rule n w Hw) as [(r & R & Hr)|D].
      - specialize (IH (ws1 ++ [w])). rewrite <- app_assoc, app_length in IH. cbn [List.length app] in IH. rewrite Nat.add_1_r in IH. destruct (IH Sl F') as [(vs & Vs & Hs)|E].
        + left. exists (r :: vs). split; constructor; assumption.
        + right. intros p. eapply dies_after; [exact A|]. destruct R as (q & c & -> & R). eapply dies_after; [apply (prule_ok write g h S n q r _ Hr); exists q, c; auto|apply E].
      - right. intros p. eapply dies_after; [exact A|]. destruct w; try contradiction. apply dies_bind. exact (D _ _ eq_refl).
    Qed.
    Lemma max_le {A} (f : A -> nat) n l : Forall (fun x => f x <= n) l -> fold_right Nat.max 0 (map f l) <= n.
    Proof. induction 1; cbn; lia. Qed.
    Lemma print_file n w q sl : g q = Some (CFile sl) -> (exists F, file_at g q F /\ file_height F <= n) \/ dies (hp_Fprint write n w (PFile (Some q))).
    Proof.
      intros G. pose proof (T _ _ G) as Sl. cbn in Sl. destruct (slice_of_at _ _ _ Sl) as (ws & Sw & Fw). destruct (print_rules n sl ws [] Sw Fw) as [(rs & R & Hs)|D].
      - left. exists {| f_rules := rs |}. split; [exists sl, ws; auto|]. unfold file_height. apply max_le. exact Hs.
      - right. unfold hp_Fprint. cbn [hp_node]. apply dies_bind. eapply dies_after; [exact (get_cell _ _ _ G)|]. cbv beta iota. rewrite (proj1 Sw). apply D.
    Qed.
  End W.
  Lemma gen_rule n q : rule_word g (WRule q) -> (exists r, rule_at g (WRule q) r /\ rule_height r <= n) \/ dies (hg_Generate n q).
  Proof.
    intros V. destruct (print_rule buf_write n _ V) as [R|D]; [left; exact R|right]. unfold hg_Generate, hg_generate, hp_Bytes. apply dies_bind. cbn zeta. apply dies_bind. apply dies_bind.
    unfold hp_Fprint. cbn [hp_node]. apply dies_bind. exact (D _ _ eq_refl).
  Qed.
End Read.

(** ** Walks *)
Section Walk.
  Variable g : nat -> option cell.
  Hypothesis T : typed g.
  Definition walked (P : word -> Prop) (n : nat) (w : word) : Prop := shaped g n w /\ forall y, within_value g w y -> P y.
  Lemma walked_sexpr (P : word -> Prop) n p s ws : g p = Some (CSExpr s) -> slice_at g (h_args s) ws -> Forall (walked P n) ws -> P (WSExpr (Some p)) -> walked P (S n) (WSExpr (Some p)).
  Proof.
    intros G Sl F H. pose proof (T _ _ G) as Tc. destruct (op_of_typed _ _ Tc) as [o O]. destruct Tc as (_ & Xi & Xa & _). destruct (expr_of_typed _ _ Xi) as [ai Ei]. destruct (expr_of_typed _ _ Xa) as [ax Ex]. split.
    - cbn [shaped]. exists s, ws, o, ai, ax. repeat (split; [assumption|]). eapply Forall_impl; [|exact F]. intros w [X _]. exact X.
    - intros y Hy. inversion Hy as [|q s' ws' w' y' G' Sl' Iw Hw]; subst; [exact H|]. rewrite G in G'. injection G' as <-. rewrite (slice_at_fun _ _ _ _ Sl' Sl) in Iw. rewrite Forall_forall in F. apply (F _ Iw). exact Hw.
  Qed.
  Lemma walked_leaf (P : word -> Prop) n w : match w with WVar _ | WNil | WSExpr None => True | WExpr p => expr_ptr g p | _ => False end -> P w -> walked P (S n) w.
  Proof.
    intros L H. split; [|intros y Hy; inversion Hy; subst; [exact H|destruct L]]. destruct w as [[|]|[a|]|x| |]; cbn; try exact I; try contradiction. exact (L a eq_refl).
  Qed.
End Walk.
Lemma within_trans g a b c : within_value g a b -> within_value g b c -> within_value g a c.
Proof. intros A. revert c. induction A as [|p s ws w x G Sl Iw A IH]; intros c C; [exact C|]. eapply within_arg; eauto. Qed.
Lemma shaped_within g w x : within_value g w x -> forall n, shaped g n w -> exists m, shaped g m x /\ m <= n.
Proof.
  induction 1 as [w|p s ws w x G Sl Iw _ IH]; intros n Sh; [exists n; split; [exact Sh|lia]|]. destruct n as [|n]; [destruct Sh|]. cbn [shaped] in Sh.
  destruct Sh as (c & ws' & o & ai & ax & G' & _ & _ & _ & Sl' & F). rewrite G in G'. injection G' as <-. rewrite (slice_at_fun _ _ _ _ Sl Sl') in Iw. rewrite Forall_forall in F.
  destruct (IH _ (F _ Iw)) as (m & Sm & Lm). exists m. split; [exact Sm|lia].
Qed.
(** What has a bounded depth holds no cycle. *)
Lemma shaped_acyclic g p : cyclic g p -> forall n, ~ shaped g n (WSExpr (Some p)).
Proof.
  intros (s & ws & w & G & Sl & Iw & Wt) n. induction n as [n IH] using lt_wf_ind. intros Sh. destruct n as [|n]; [destruct Sh|]. cbn [shaped] in Sh.
  destruct Sh as (c & ws' & o & ai & ax & G' & _ & _ & _ & Sl' & F). rewrite G in G'. injection G' as <-. rewrite (slice_at_fun _ _ _ _ Sl Sl') in Iw. rewrite Forall_forall in F.
  destruct (shaped_within _ _ _ Wt _ (F _ Iw)) as (m & Sm & Lm). apply (IH m); [lia|exact Sm].
Qed.
Lemma tree_shaped g v : forall w n, value_at g w v -> height v <= n -> shaped g n w.
Proof.
  induction v as [s IH|e|x| ] using value_ind'; intros w [|n] V L; try (cbn in L; lia); inversion V as [p c s' ws G Eb O Et Ei Ex Sl F Ee Er| | |]; subst; cbn [shaped]; eauto.
  exists c, ws, (s_op s), (s_auxint s), (s_aux s). repeat (split; [assumption|]). pose proof (heights _ _ L) as H.
  clear -IH F H. induction F as [|w v ws vs V F IHF]; constructor; inversion IH; inversion H; subst; auto.
Qed.
Lemma tree_acyclic g w v p : value_at g w v -> within_value g w (WSExpr (Some p)) -> ~ cyclic g p.
Proof. intros V Wt C. destruct (shaped_within _ _ _ Wt _ (tree_shaped _ _ _ (height v) V (le_n _))) as (m & Sm & _). exact (shaped_acyclic _ _ C _ Sm). Qed.

(** ** The feature tests *)
Section Has.
  Variable h : heap.
  Notation g := (view h).
  Hypothesis T : typed g.
  Variable x : feature.
  Definition missing (y : word) : Prop := y <> WSExpr None /\ y <> WNil /\ forall p s, y = WSExpr (Some p) -> g p = Some (CSExpr s) -> ~ shows x s.
  Definition found_in (w : word) : Prop := exists p s, within_value g w (WSExpr (Some p)) /\ g p = Some (CSExpr s) /\ shows x s.
  Definition told (yes no : Prop) (r : res bool) : Prop :=
    match r with Ok true => yes | Ok false => no | Err _ => False | Panic m => nil_or_overflow m \/ m = unexpected_type (str "<nil>") end.
  Lemma told_weak (y y' n n' : Prop) r : (y -> y') -> (n -> n') -> told y n r -> told y' n' r.
  Proof. destruct r as [[]| |]; cbn; auto. Qed.
  Lemma test_shows s : if h_test x s then shows x s else ~ shows x s.
  Proof. destruct x; cbn; [destruct (h_binding s)|destruct (h_type s)|destruct (h_aux s)|destruct (h_auxint s)|destruct (h_ellipsis s)|destruct (h_trailing s)]; congruence. Qed.
  Lemma walk_parts_told ps : exists r, h_walk_parts ps h = (h, r) /\ told False True r.
  Proof. induction ps as [|[] ps IH]; cbn [h_walk_parts]; try exact IH; eexists; (split; [reflexivity|]); cbn; auto. Qed.
  Lemma walk_op_told s : typed_cell g (CSExpr s) -> exists r, h_walk_op (h_op s) h = (h, r) /\ told False True r.
  Proof.
    intros (O & _). destruct (h_op s) as [c|a|]; cbn [h_walk_op]; [eexists; split; [reflexivity|exact I]| |eexists; split; [reflexivity|cbn; auto]].
    destruct (O a eq_refl) as [ps E]. rewrite (mbind_ok _ _ _ _ _ (get_cell _ _ _ E)). apply walk_parts_told.
  Qed.
  Lemma walk_found n w : exists r, h_walk x n w true h = (h, r) /\ match r with Ok b => b = true | Err _ => False | Panic m => nil_or_overflow m end.
  Proof. destruct n; cbn [h_walk]; eexists; (split; [reflexivity|]); [right|]; reflexivity. Qed.
  Lemma walk_args_found n args : forall ws2 ws1, slice_at g args (ws1 ++ ws2) ->
    exists r, h_walk_args (h_walk x n) args (List.length ws2) (List.length ws1) true h = (h, r) /\ match r with Ok b => b = true | Err _ => False | Panic m => nil_or_overflow m end.
  Proof.
    induction ws2 as [|w ws2 IH]; intros ws1 Sl; cbn [List.length h_walk_args]; [eexists; split; reflexivity|].
    assert (A : at_ args (List.length ws1) h = (h, Ok w)) by (eapply at_ok; [apply sub_refl|exact Sl|]; rewrite nth_error_app2, Nat.sub_diag by auto; reflexivity).
    rewrite (mbind_ok _ _ _ _ _ A), run_bind. destruct (walk_found n w) as (r & E & Hr). rewrite E. destruct r as [b| |m]; [|destruct Hr|exists (Panic m); auto]. subst b.
    specialize (IH (ws1 ++ [w])). rewrite <- app_assoc, app_length in IH. cbn [List.length app] in IH. rewrite Nat.add_1_r in IH. apply IH. exact Sl.
  Qed.
  Lemma walk_args_told n args : (forall w, value_word g w -> exists r, h_walk x n w false h = (h, r) /\ told (found_in w) (walked g missing n w) r) ->
    forall ws2 ws1, slice_at g args (ws1 ++ ws2) -> Forall (value_word g) ws2 ->
      exists r, h_walk_args (h_walk x n) args (List.length ws2) (List.length ws1) false h = (h, r) /\ told (exists w, In w ws2 /\ found_in w) (Forall (walked g missing n) ws2) r.
  Proof.
    intros Hw. induction ws2 as [|w ws2 IH]; intros ws1 Sl F; cbn [List.length h_walk_args]; [eexists; split; [reflexivity|constructor]|]. apply Forall_cons_iff in F. destruct F as [V F].
    assert (A : at_ args (List.length ws1) h = (h, Ok w)) by (eapply at_ok; [apply sub_refl|exact Sl|]; rewrite nth_error_app2, Nat.sub_diag by auto; reflexivity).
    rewrite (mbind_ok _ _ _ _ _ A), run_bind. destruct (Hw w V) as (r & E & Hr). rewrite E.
    destruct r as [[]| |m]; [|specialize (IH (ws1 ++ [w])); rewrite <- app_assoc, app_length in IH; cbn [List.length app] in IH; rewrite Nat.add_1_r in IH; destruct (IH Sl F) as (r & E' & Hr')|destruct Hr|exists (Panic m); auto].
    - rewrite <- (Nat.add_1_r (List.length ws1)). pose proof (walk_args_found n args ws2 (ws1 ++ [w])) as Q. rewrite <- app_assoc, app_length in Q. cbn [List.length app] in Q. destruct (Q Sl) as (r & E' & Hr').
      exists r. split; [exact E'|]. destruct r as [b| |m]; cbn; [subst b; exists w; cbn; auto|destruct Hr'|auto].
    - exists r. split; [exact E'|]. eapply told_weak; [| |exact Hr']; [intros (y & Iy & Fy); exists y; cbn; auto|intros F'; constructor; assumption].
  Qed.
  Lemma walk_told n : forall w, value_word g w -> exists r, h_walk x n w false h = (h, r) /\ told (found_in w) (walked g missing n w) r.
  Proof.
    induction n as [|n IH]; intros w V; cbn [h_walk]; [eexists; split; [reflexivity|left; right; reflexivity]|]. destruct w as [[a|]|p|y| |]; cbn in V.
    - destruct (V a eq_refl) as [s G]. rewrite (mbind_ok _ _ _ _ _ (get_sexpr_ok _ _ _ G)). pose proof (test_shows s) as Ts. destruct (h_test x s) eqn:Et.
      + exists (Ok true). split; [reflexivity|]. exists a, s. split; [constructor|auto].
      + destruct (walk_op_told s (T _ _ G)) as (r & E & Hr). rewrite run_bind, E. destruct r as [[]| |m]; [destruct Hr| |destruct Hr|exists (Panic m); auto].
        destruct (slice_of_at _ _ _ (proj2 (proj2 (proj2 (T _ _ G))))) as (ws & Sw & Fw). rewrite (proj1 Sw). destruct (walk_args_told n (h_args s) IH ws [] Sw Fw) as (r & E' & Hr'). exists r. split; [exact E'|].
        eapply told_weak; [| |exact Hr'].
        * intros (w & Iw & q & s' & Wt & G' & Sh). exists q, s'. split; [eapply within_arg; eauto|auto].
        * intros F. eapply walked_sexpr; eauto. split; [discriminate|]. split; [discriminate|]. intros q s' [= <-] G'. rewrite G in G'. injection G' as <-. exact Ts.
    - eexists. split; [reflexivity|]. left. left. reflexivity.
    - eexists. split; [reflexivity|]. cbn. apply walked_leaf; [exact V|]. split; [discriminate|]. split; [discriminate|]. intros; discriminate.
    - eexists. split; [reflexivity|]. cbn. apply walked_leaf; [exact I|]. split; [discriminate|]. split; [discriminate|]. intros; discriminate.
    - eexists. split; [reflexivity|]. right. reflexivity.
    - destruct V.
  Qed.
  Lemma has_told n q : rule_word g (WRule q) -> exists r, h_has x n q h = (h, r) /\
    told (exists p s, within_rule g (WRule q) (WSExpr (Some p)) /\ g p = Some (CSExpr s) /\ shows x s) (exists p, q = Some p /\ shaped_rule g n p /\ forall y, within_rule g (WRule q) y -> missing y) r.
  Proof.
    intros V. destruct q as [a|]; cbn [h_has]; [|eexists; split; [reflexivity|left; left; reflexivity]]. destruct (V a eq_refl) as [c G]. destruct (T _ _ G) as (Vm & Xc & Vr). pose proof (get_rule_ok _ _ _ G) as R.
    destruct (expr_of_typed _ _ Xc) as [o Ec]. rewrite (mbind_ok _ _ _ _ _ R), run_bind. destruct (walk_told n _ Vm) as (r & E & Hr). rewrite E.
    destruct r as [[]| |m]; [| |destruct Hr|exists (Panic m); auto].
    - rewrite (mbind_ok _ _ _ _ _ R). destruct (walk_found n (h_result c)) as (r & E' & Hr'). exists r. split; [exact E'|]. destruct r as [b| |m]; cbn; [subst b|destruct Hr'|auto].
      destruct Hr as (p & s & Wt & Gs & Sh). exists p, s. split; [exists a, c; auto|auto].
    - rewrite (mbind_ok _ _ _ _ _ R). destruct (walk_told n _ Vr) as (r & E' & Hr'). exists r. split; [exact E'|]. eapply told_weak; [| |exact Hr'].
      + intros (p & s & Wt & Gs & Sh). exists p, s. split; [exists a, c; auto|auto].
      + intros [Sr Wr]. destruct Hr as [Sm Wm]. exists a. split; [reflexivity|]. split; [exists c, o; auto|]. intros y (p & c' & [= <-] & G' & H). rewrite G in G'. injection G' as <-. destruct H; auto.
  Qed.
End Has.

(** ** An expansion that succeeds has seen everything *)
Section Expanded.
  Variable spare : nat -> nat -> nat.
  Variable h0 : heap.
  Notation g := (view h0).
  Hypothesis T : typed g.
  Definition present (y : word) : Prop := y <> WSExpr None /\ y <> WNil.
  Lemma keeps_cell h p c : keeps h0 h -> g p = Some c -> nth_error h p = Some c.
  Proof. intros K. apply (keeps_sub _ _ K). Qed.
  Lemma safe_out {A} (m : M A) Q h h' r : safe h0 m Q -> keeps h0 h -> m h = (h', r) -> keeps h0 h' /\ match r with Ok a => Q a | _ => True end.
  Proof. intros Sm K E. destruct (Sm h K) as [A1 A2]. rewrite E in *. cbn [fst snd] in *. split; [exact A1|]. destruct r; auto. Qed.
  Lemma exp_args n args : (forall w h h' sl, value_word g w -> keeps h0 h -> h_expandvalue spare n w h = (h', Ok sl) -> walked g present n w) ->
    forall ws2 ws1 k h h' r, slice_at g args (ws1 ++ ws2) -> Forall (value_word g) ws2 -> keeps h0 h ->
      h_args_loop (h_expandvalue spare n) args (List.length ws2) (List.length ws1) k h = (h', Ok r) -> Forall (walked g present n) ws2.
  Proof.
    intros Hw. induction ws2 as [|w ws2 IH]; intros ws1 k h h' r Sl F K E; [constructor|]. apply Forall_cons_iff in F. destruct F as [V F]. cbn [List.length h_args_loop] in E.
    assert (A : at_ args (List.length ws1) h = (h, Ok w)) by (eapply at_ok; [exact (keeps_sub _ _ K)|exact Sl|]; rewrite nth_error_app2, Nat.sub_diag by auto; reflexivity).
    rewrite (mbind_ok _ _ _ _ _ A), run_bind in E. destruct (h_expandvalue spare n w h) as [h1 [sl|e|m]] eqn:E1; try discriminate E.
    destruct (safe_out _ _ _ _ _ (safe_expandvalue spare h0 n w) K E1) as [K1 _]. rewrite run_bind in E. destruct (lift (resolvecounts k (sl_len sl)) h1) as [h2 [k'|e|m]] eqn:E2; try discriminate E.
    assert (h2 = h1) by (cbn in E2; congruence). subst h2. rewrite run_bind in E. destruct (h_args_loop (h_expandvalue spare n) args (List.length ws2) (S (List.length ws1)) k' h1) as [h3 [r'|e|m]] eqn:E3; try discriminate E.
    constructor; [exact (Hw _ _ _ _ V K E1)|]. specialize (IH (ws1 ++ [w])). rewrite <- app_assoc, app_length in IH. cbn [List.length app] in IH. rewrite Nat.add_1_r in IH. eapply IH; eassumption.
  Qed.
  Lemma exp_value n : forall w h h' sl, value_word g w -> keeps h0 h -> h_expandvalue spare n w h = (h', Ok sl) -> walked g present n w.
  Proof.
    induction n as [|n IH]; intros w h h' sl V K E; cbn [h_expandvalue] in E; [discriminate|]. destruct w as [[a|]|p|y| |]; cbn in V; try discriminate E.
    - destruct (V a eq_refl) as [s G]. rewrite (mbind_ok _ _ _ _ _ (get_sexpr_ok _ _ _ (keeps_cell _ _ _ K G))), run_bind in E. destruct (h_expandop (h_op s) h) as [h1 [ops|e|m]] eqn:E1; try discriminate E.
      destruct (safe_out _ _ _ _ _ (safe_expandop h0 _) K E1) as [K1 _]. rewrite run_bind in E.
      destruct (h_args_loop (h_expandvalue spare n) (h_args s) (sl_len (h_args s)) 0 (List.length ops) h1) as [h2 [r|e|m]] eqn:E2; try discriminate E.
      destruct (slice_of_at _ _ _ (proj2 (proj2 (proj2 (T _ _ G))))) as (ws & Sw & Fw). rewrite (proj1 Sw) in E2. eapply walked_sexpr; eauto; [|split; discriminate]. eapply (exp_args n (h_args s) IH ws []); eauto.
    - apply walked_leaf; [exact V|split; discriminate].
    - apply walked_leaf; [exact I|split; discriminate].
  Qed.
  Definition rule_seen n (w : word) : Prop := exists p, w = WRule (Some p) /\ shaped_rule g n p /\ forall y, within_rule g w y -> present y.
  Lemma exp_rule n q h h' sl : rule_word g (WRule q) -> keeps h0 h -> h_expandrule spare n q h = (h', Ok sl) -> rule_seen n (WRule q).
  Proof.
    intros V K E. destruct q as [a|]; cbn [h_expandrule] in E; [|discriminate]. destruct (V a eq_refl) as [c G]. destruct (T _ _ G) as (Vm & Xc & Vr). destruct (expr_of_typed _ _ Xc) as [o Ec].
    rewrite (mbind_ok _ _ _ _ _ (get_rule_ok _ _ _ (keeps_cell _ _ _ K G))), run_bind in E. destruct (h_expandvalue spare n (h_match c) h) as [h1 [ms|e|m]] eqn:E1; try discriminate E.
    destruct (safe_out _ _ _ _ _ (safe_expandvalue spare h0 n _) K E1) as [K1 _]. rewrite (mbind_ok _ _ _ _ _ (get_rule_ok _ _ _ (keeps_cell _ _ _ K1 G))), run_bind in E.
    destruct (h_expandvalue spare n (h_result c) h1) as [h2 [rs|e|m]] eqn:E2; try discriminate E. destruct (exp_value _ _ _ _ _ Vm K E1) as [Sm Wm]. destruct (exp_value _ _ _ _ _ Vr K1 E2) as [Sr Wr].
    exists a. split; [reflexivity|]. split; [exists c, o; auto|]. intros y (p & c' & [= <-] & G' & H). rewrite G in G'. injection G' as <-. destruct H; auto.
  Qed.
  Lemma exp_rules n sl : forall ws2 ws1 exps h h' r, slice_at g sl (ws1 ++ ws2) -> Forall (rule_word g) ws2 -> keeps h0 h -> mine h0 exps ->
    h_expandrules spare n sl (List.length ws2) (List.length ws1) exps h = (h', Ok r) -> Forall (rule_seen n) ws2.
  Proof.
    induction ws2 as [|w ws2 IH]; intros ws1 exps h h' r Sl F K M E; [constructor|]. apply Forall_cons_iff in F. destruct F as [V F]. cbn [List.length h_expandrules] in E.
    assert (A : at_ sl (List.length ws1) h = (h, Ok w)) by (eapply at_ok; [exact (keeps_sub _ _ K)|exact Sl|]; rewrite nth_error_app2, Nat.sub_diag by auto; reflexivity).
    rewrite (mbind_ok _ _ _ _ _ A) in E. destruct w as [| | | |q]; try discriminate E. rewrite run_bind in E. destruct (h_expandrule spare n q h) as [h1 [ex|e|m]] eqn:E1; try discriminate E.
    destruct (safe_out _ _ _ _ _ (safe_expandrule spare h0 n q) K E1) as [K1 _]. rewrite run_bind in E. destruct (elements ex h1) as [h2 [ws|e|m]] eqn:E2; try discriminate E. destruct (safe_out _ _ _ _ _ (safe_elements h0 ex) K1 E2) as [K2 _].
    rewrite run_bind in E. destruct (append spare exps ws h2) as [h3 [exps'|e|m]] eqn:E3; try discriminate E. destruct (safe_out _ _ _ _ _ (safe_append spare h0 exps ws M) K2 E3) as [K3 M3].
    constructor; [exact (exp_rule _ _ _ _ _ V K E1)|]. specialize (IH (ws1 ++ [WRule q])). rewrite <- app_assoc, app_length in IH. cbn [List.length app] in IH. rewrite Nat.add_1_r in IH. eapply IH; eassumption.
  Qed.
  Lemma exp_file n f sl h' u : g f = Some (CFile sl) -> h_ExpandAlternates spare n (Some f) h0 = (h', Ok u) -> exists ws, slice_at g sl ws /\ Forall (rule_seen n) ws.
  Proof.
    intros G E. cbn [h_ExpandAlternates] in E. rewrite (mbind_ok _ _ _ _ _ (get_cell _ _ _ G)), run_bind in E. destruct (h_expandrules spare n sl (sl_len sl) 0 nil_slice h0) as [h1 [rs|e|m]] eqn:E1; try discriminate E.
    pose proof (T _ _ G) as Sl. cbn in Sl. destruct (slice_of_at _ _ _ Sl) as (ws & Sw & Fw). exists ws. split; [exact Sw|]. rewrite (proj1 Sw) in E1. exact (exp_rules n sl ws [] _ _ _ _ Sw Fw (keeps_refl _) (mine_nil _) E1).
  Qed.
End Expanded.
