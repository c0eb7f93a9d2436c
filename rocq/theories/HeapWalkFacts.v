(** Facts about the feature tests on a heap: they compute what Walk.v computes on trees. *)
From Verif Require Import Text GoAst Ast Walk Expand Heap HeapWalk SpecHeap HeapFacts Conc SpecConc.
From Coq Require Import Arith Lia Bool.

(** rules/rules.go on trees. *)
Definition t_test (x : feature) (s : sexpr) : bool :=
  match x with
  | FBinding => is_nonempty (s_binding s) | FType => is_nonempty (s_type s) | FAux => is_some (s_aux s)
  | FAuxInt => is_some (s_auxint s) | FEllipsis => s_ellipsis s | FTrailing => s_trailing s
  end.
Lemma has_contains x r : has x r = contains (on_sexpr (t_test x)) (NRule r).
Proof. destruct x; reflexivity. Qed.

Section X.
  Variable x : feature.
  Definition cb (n : node) (st : bool * unit) : bool * (bool * unit) :=
    let '(found, s) := st in let '(found', s') := if found then (true, s) else (on_sexpr (t_test x) n, tt) in (negb found', (found', s')).
  Definition twalk (v : value) (b : bool) : wout (bool * unit) := walk_value (inspector cb) tt v (b, tt).
  Definition out (o : wout (bool * unit)) : res bool := match o with WDone st => Ok (fst st) | WPanic m _ => Panic m end.
  Lemma twalk_found v : twalk v true = WDone (true, tt).
  Proof. unfold twalk. destruct v; reflexivity. Qed.
  Lemma test_at g c s : expr_at g (h_aux c) (s_aux s) -> expr_at g (h_auxint c) (s_auxint s) -> h_binding c = s_binding s -> h_type c = s_type s ->
    h_ellipsis c = s_ellipsis s -> h_trailing c = s_trailing s -> h_test x c = t_test x s.
  Proof.
    intros A B C D E F. destruct x; cbn [h_test t_test]; [rewrite C; reflexivity|rewrite D; reflexivity| | |exact E|exact F].
    - destruct (h_aux c), (s_aux s); cbn in A; try contradiction; reflexivity.
    - destruct (h_auxint c), (s_auxint s); cbn in B; try contradiction; reflexivity.
  Qed.
  Lemma parts_ok ps h : h_walk_parts ps h = (h, out (wfor (walk_part (inspector cb) tt) ps (false, tt))).
  Proof. induction ps as [|[]]; cbn; auto. Qed.
  Lemma op_ok g h o t : sub g (nth_error h) -> op_at g o t -> h_walk_op o h = (h, out (walk_op (inspector cb) tt t (false, tt))).
  Proof.
    intros S O. destruct o, t; cbn in O; try contradiction; cbn [h_walk_op]; [reflexivity| |reflexivity].
    rewrite run_bind, get_run, (S _ _ O). rewrite parts_ok. reflexivity.
  Qed.
  Lemma op_done t st : walk_op (inspector cb) tt t (false, tt) = WDone st -> st = (false, tt).
  Proof.
    destruct t as [c|ps|]; cbn; [congruence| |discriminate]. induction ps as [|[]]; cbn; auto; try congruence; discriminate.
  Qed.
  Lemma args_ok (e : word -> bool -> M bool) args : forall ws2 ts ws1 b g h, sub g (nth_error h) -> slice_at g args (ws1 ++ ws2) ->
    Forall2 (fun w t => forall b, e w b h = (h, out (twalk t b))) ws2 ts ->
    h_walk_args e args (List.length ws2) (List.length ws1) b h = (h, out (wfor (fun a => walk_value (inspector cb) tt a) ts (b, tt))).
  Proof.
    induction ws2 as [|w ws2 IH]; intros ts ws1 b g h S Sl F; inversion F as [|? t ? ts' E F']; subst; [reflexivity|]. cbn [List.length h_walk_args wfor].
    assert (A : at_ args (List.length ws1) h = (h, Ok w)) by (eapply at_ok; [exact S|exact Sl|]; rewrite nth_error_app2, Nat.sub_diag by auto; reflexivity).
    rewrite (mbind_ok _ _ _ _ _ A). rewrite run_bind, E. unfold twalk. destruct (walk_value (inspector cb) tt t (b, tt)) as [[b' []]|m s]; cbn [out wbind fst]; [|reflexivity].
    specialize (IH ts' (ws1 ++ [w]) b' g h S). rewrite <- app_assoc, app_length in IH. cbn [List.length app] in IH. rewrite Nat.add_1_r in IH. apply IH; assumption.
  Qed.
  Lemma walk_ok t : forall fuel g h w b, height t <= fuel -> sub g (nth_error h) -> value_at g w t -> h_walk x fuel w b h = (h, out (twalk t b)).
  Proof.
    induction t as [s IH|e|z|] using value_ind'; intros [|fuel] g h w b Hf S V; try (cbn in Hf; lia); inversion V; subst; cbn [h_walk]; destruct b; try (rewrite twalk_found; reflexivity); try reflexivity.
    assert (Gc : get_sexpr p h = (h, Ok c)) by (unfold get_sexpr; rewrite run_bind, get_run; rewrite (S _ _ H0); reflexivity).
    rewrite (mbind_ok _ _ _ _ _ Gc). rewrite (test_at g c s) by assumption. unfold twalk. cbn [walk_value]. unfold inspector at 1. cbn [cb node_of_value on_sexpr].
    destruct (t_test x s) eqn:T; cbn [negb]; [reflexivity|]. rewrite run_bind, (op_ok g h (h_op c) (s_op s)) by assumption.
    destruct (walk_op (inspector cb) tt (s_op s) (false, tt)) as [st|m st] eqn:W; cbn [out wbind]; [|reflexivity]. pose proof (op_done _ _ W) as ->. cbn [fst].
    assert (L : sl_len (h_args c) = List.length ws) by (match goal with E : slice_at g (h_args c) ws |- _ => apply E end). rewrite L.
    eapply (args_ok (h_walk x fuel) (h_args c) ws (s_args s) [] false g h); [exact S|assumption|].
    match goal with E : Forall2 (value_at g) ws (s_args s) |- _ => rename E into F end.
    assert (Hh : Forall (fun t => height t <= fuel) (s_args s)).
    { cbn [height] in Hf. clear -Hf. induction (s_args s) as [|a l IHl]; constructor; cbn [map fold_right] in Hf; [lia|apply IHl; lia]. }
    clear -IH F Hh S. induction F as [|w t ws ts V F IHF]; constructor; inversion IH; subst; inversion Hh; subst; [|apply IHF; assumption]. intros b. eauto.
  Qed.
  Lemma has_ok fuel g h p r : rule_height r <= fuel -> sub g (nth_error h) -> rule_at g (WRule (Some p)) r -> h_has x fuel (Some p) h = (h, has x r).
  Proof.
    intros Hf S (q & c & E & Gp & Vm & Vc & Eb & Vr). inversion E; subst. cbn [h_has]. unfold rule_height in Hf.
    assert (Gc : get_rule q h = (h, Ok c)) by (unfold get_rule; rewrite run_bind, get_run; rewrite (S _ _ Gp); reflexivity).
    rewrite (mbind_ok _ _ _ _ _ Gc). rewrite run_bind, (walk_ok (r_match r) fuel g h) by (auto; lia).
    assert (Cn : has x r = bind (match wbind (twalk (r_match r) false) (walk_value (inspector cb) tt (r_result r)) with WDone st => Ok st | WPanic m _ => Panic m end) (fun st => Ok (fst st))).
    { rewrite has_contains. reflexivity. }
    rewrite Cn. clear Cn.
    destruct (twalk (r_match r) false) as [[b []]|m st]; cbn [out wbind fst bind]; [|reflexivity]. rewrite (mbind_ok _ _ _ _ _ Gc).
    rewrite (walk_ok (r_result r) fuel g h) by (auto; lia). change (walk_value (inspector _) tt (r_result r) (b, tt)) with (twalk (r_result r) b).
    destruct (twalk (r_result r) b) as [[b' []]|m st]; reflexivity.
  Qed.
End X.
