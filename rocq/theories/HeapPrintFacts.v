(** Facts about printing and generating on a heap: they do what Printer.v and Smt.v do on trees. *)
From Verif Require Import Text GoAst Ast Printer Smt Expand Heap HeapPrint SpecHeap SpecNil HeapFacts.
From Coq Require Import Arith Lia Bool.

Lemma get_cell h a c : nth_error h a = Some c -> get a h = (h, Ok c).
Proof. intros E. rewrite get_run, E. reflexivity. Qed.
Lemma get_sexpr_ok h a c : nth_error h a = Some (CSExpr c) -> get_sexpr a h = (h, Ok c).
Proof. intros E. unfold get_sexpr. rewrite run_bind, (get_cell _ _ _ E). reflexivity. Qed.
Lemma get_rule_ok h a c : nth_error h a = Some (CRule c) -> get_rule a h = (h, Ok c).
Proof. intros E. unfold get_rule. rewrite run_bind, (get_cell _ _ _ E). reflexivity. Qed.
Lemma heights fuel (args : list value) : S (fold_right Nat.max 0 (map height args)) <= S fuel -> Forall (fun t => height t <= fuel) args.
Proof. induction args as [|a l IHl]; intros H; constructor; cbn [map fold_right] in H; [lia|apply IHl; lia]. Qed.

Section Print.
  Context {W : Type}.
  Variable write : W -> text -> W * option text.
  Variables (g : nat -> option cell) (h : heap).
  Hypothesis S : sub g (nth_error h).

  Lemma op_ok o t p : op_at g o t -> hp_op write o p h = (h, Ok (p_op write t p)).
  Proof.
    intros O. destruct o, t; cbn in O; try contradiction; cbn [hp_op]; [subst; reflexivity| |reflexivity].
    rewrite (mbind_ok _ _ _ _ _ (get_cell _ _ _ (S _ _ O))). reflexivity.
  Qed.
  Lemma expr_ok a e p : g a = Some (CExpr e) -> hp_expr write (Some a) p h = (h, Ok (p_goexpr write e p)).
  Proof. intros E. cbn [hp_expr]. rewrite (mbind_ok _ _ _ _ _ (get_cell _ _ _ (S _ _ E))). reflexivity. Qed.
  Lemma opt_ok x o a b p : expr_at g x o -> hp_opt write x a b p h = (h, Ok (match o with None => p | Some e => printf write b (p_goexpr write e (printf write a p)) end)).
  Proof.
    destruct x as [x|], o as [e|]; cbn [expr_at]; intros E; try contradiction; [|reflexivity]. unfold hp_opt. rewrite (mbind_ok _ _ _ _ _ (expr_ok _ _ _ E)). reflexivity.
  Qed.
  Lemma pargs_ok (e : word -> printer W -> M (printer W)) args : forall ws2 ts ws1 p, slice_at g args (ws1 ++ ws2) ->
    Forall2 (fun w t => forall p, e w p h = (h, Ok (p_value write t p))) ws2 ts ->
    hp_args write e args (List.length ws2) (List.length ws1) p h = (h, Ok (fold_left (fun p arg => p_value write arg (printf write (str " ") p)) ts p)).
  Proof.
    induction ws2 as [|w ws2 IH]; intros ts ws1 p Sl F; inversion F as [|? t ? ts' E F']; subst; [reflexivity|]. cbn [List.length hp_args fold_left].
    assert (A : at_ args (List.length ws1) h = (h, Ok w)) by (eapply at_ok; [exact S|exact Sl|]; rewrite nth_error_app2, Nat.sub_diag by auto; reflexivity).
    rewrite (mbind_ok _ _ _ _ _ A), (mbind_ok _ _ _ _ _ (E _)). specialize (IH ts' (ws1 ++ [w]) (p_value write t (printf write (str " ") p))).
    rewrite <- app_assoc, app_length in IH. cbn [List.length app] in IH. rewrite Nat.add_1_r in IH. apply IH; assumption.
  Qed.
  Lemma value_ok v : forall fuel w p, height v <= fuel -> value_at g w v -> hp_value write fuel w p h = (h, Ok (p_value write v p)).
  Proof.
    induction v as [s IH|e|z|] using value_ind'; intros [|fuel] w p Hf V; try (cbn in Hf; lia); inversion V as [a c s0 ws G Eb O Et Ei Ex Sl F El Er|a e0 G|x|]; subst; cbn [hp_value]; try reflexivity; [|apply expr_ok; assumption].
    rewrite (mbind_ok _ _ _ _ _ (get_sexpr_ok _ _ _ (S _ _ G))). cbn zeta. rewrite (mbind_ok _ _ _ _ _ (op_ok _ _ _ O)). cbn beta.
    rewrite (mbind_ok _ _ _ _ _ (opt_ok _ _ _ _ _ Ei)). cbn beta. rewrite (mbind_ok _ _ _ _ _ (opt_ok _ _ _ _ _ Ex)). cbn beta.
    assert (L : sl_len (h_args c) = List.length ws) by apply Sl. rewrite L.
    assert (A : Forall2 (fun w t => forall p, hp_value write fuel w p h = (h, Ok (p_value write t p))) ws (s_args s)).
    { cbn [height] in Hf. pose proof (heights _ _ Hf) as Hh. clear -IH F Hh. induction F as [|w t ws ts V F IHF]; constructor; inversion IH; subst; inversion Hh; subst; [|apply IHF; assumption]. intros p. eauto. }
    rewrite (mbind_ok _ _ _ _ _ (pargs_ok _ _ _ _ [] _ Sl A)). cbn beta. rewrite Eb, Et, El, Er. reflexivity.
  Qed.
  Lemma prule_ok fuel q r p : rule_height r <= fuel -> rule_at g (WRule (Some q)) r -> hp_rule write fuel (Some q) p h = (h, Ok (p_rule write r p)).
  Proof.
    intros Hf (q' & c & E & Gp & Vm & Vc & Eb & Vr). inversion E; subst. unfold rule_height in Hf. cbn [hp_rule].
    pose proof (get_rule_ok _ _ _ (S _ _ Gp)) as R. rewrite (mbind_ok _ _ _ _ _ R), (mbind_ok _ _ _ _ _ (value_ok (r_match r) fuel _ _ ltac:(lia) Vm)), (mbind_ok _ _ _ _ _ R).
    assert (C : (match h_cond c with None => ret (p_value write (r_match r) p) | Some _ => hp_expr write (h_cond c) (printf write (str " && ") (p_value write (r_match r) p)) end : M _) h =
      (h, Ok (match r_cond r with None => p_value write (r_match r) p | Some e => p_goexpr write e (printf write (str " && ") (p_value write (r_match r) p)) end))).
    { destruct (h_cond c) as [x|], (r_cond r) as [e|]; cbn in Vc; try contradiction; [apply expr_ok; exact Vc|reflexivity]. }
    rewrite (mbind_ok _ _ _ _ _ C). cbn zeta. rewrite (value_ok (r_result r) fuel _ _ ltac:(lia) Vr). unfold p_rule. rewrite Eb. reflexivity.
  Qed.
  Lemma prules_ok fuel sl : forall ws2 rs ws1 p, slice_at g sl (ws1 ++ ws2) -> Forall2 (rule_at g) ws2 rs -> Forall (fun r => rule_height r <= fuel) rs ->
    hp_rules write fuel sl (List.length ws2) (List.length ws1) p h = (h, Ok (fold_left (fun p r => printf write [nl] (p_rule write r p)) rs p)).
  Proof.
    induction ws2 as [|w ws2 IH]; intros rs ws1 p Sl F Hh; inversion F as [|? t ? ts' E F']; subst; [reflexivity|]. inversion Hh; subst. cbn [List.length hp_rules fold_left].
    assert (A : at_ sl (List.length ws1) h = (h, Ok w)) by (eapply at_ok; [exact S|exact Sl|]; rewrite nth_error_app2, Nat.sub_diag by auto; reflexivity).
    rewrite (mbind_ok _ _ _ _ _ A). pose proof E as (q & c & -> & _). rewrite (mbind_ok _ _ _ _ _ (prule_ok _ _ _ _ H1 E)). specialize (IH ts' (ws1 ++ [WRule (Some q)]) (printf write [nl] (p_rule write t p))).
    rewrite <- app_assoc, app_length in IH. cbn [List.length app] in IH. rewrite Nat.add_1_r in IH. apply IH; assumption.
  Qed.
  Lemma Fprint_file fuel w q f : file_height f <= fuel -> file_at g q f -> hp_Fprint write fuel w (PFile (Some q)) h = (h, Ok (Fprint write w (NFile f))).
  Proof.
    intros Hf (sl & ws & G & Sl & F). unfold hp_Fprint. cbn [hp_node].
    assert (Hh : Forall (fun r => rule_height r <= fuel) (f_rules f)).
    { unfold file_height in Hf. clear -Hf. induction (f_rules f) as [|r l IH]; constructor; cbn in Hf; [lia|apply IH; lia]. }
    assert (L : sl_len sl = List.length ws) by apply Sl.
    rewrite run_bind, (mbind_ok _ _ _ _ _ (get_cell _ _ _ (S _ _ G))), L. rewrite (prules_ok fuel sl ws (f_rules f) [] _ Sl F Hh). reflexivity.
  Qed.
  Lemma Fprint_rule fuel w q r : rule_height r <= fuel -> rule_at g (WRule (Some q)) r -> hp_Fprint write fuel w (PWord (WRule (Some q))) h = (h, Ok (Fprint write w (NRule r))).
  Proof. intros Hf R. unfold hp_Fprint. cbn [hp_node]. rewrite (mbind_ok _ _ _ _ _ (prule_ok _ _ _ _ Hf R)). reflexivity. Qed.
  Lemma Fprint_value fuel w x v : height v <= fuel -> value_at g x v -> hp_Fprint write fuel w (PWord x) h = (h, Ok (Fprint write w (node_of_value v))).
  Proof.
    intros Hf R. unfold hp_Fprint. assert (E : hp_node write fuel (PWord x) {| p_w := w; p_err := None |} = hp_value write fuel x {| p_w := w; p_err := None |}) by (inversion R; reflexivity). rewrite E.
    rewrite (mbind_ok _ _ _ _ _ (value_ok _ _ _ _ Hf R)). destruct v; reflexivity.
  Qed.
End Print.

Lemma Bytes_of fuel n t h : (forall w, hp_Fprint buf_write fuel w n h = (h, Ok (Fprint buf_write w t))) -> hp_Bytes fuel n h = (h, Bytes t).
Proof. intros E. unfold hp_Bytes. rewrite (mbind_ok _ _ _ _ _ (E [])). unfold Bytes. destruct (Fprint buf_write [] t) as [b [e|]]; reflexivity. Qed.

Section Gen.
  Variables (g : nat -> option cell) (h : heap).
  Hypothesis S : sub g (nth_error h).
  Lemma mwrap_run {A} p (m : M A) : forall h, mwrap p m h = (fst (m h), wrap p (snd (m h))).
  Proof. induction m as [r|a k IH|c k IH|a c k IH]; intros h0; cbn [mwrap run fst snd]; auto. Qed.
  Lemma precheck_ok c s : h_binding c = s_binding s -> op_at g (h_op c) (s_op s) -> h_type c = s_type s -> expr_at g (h_auxint c) (s_auxint s) -> expr_at g (h_aux c) (s_aux s) ->
    h_ellipsis c = s_ellipsis s -> h_trailing c = s_trailing s -> hg_precheck c = g_precheck s.
  Proof.
    intros Eb O Et Ei Ex El Er. unfold hg_precheck, g_precheck. rewrite Eb, Et, El, Er.
    destruct (h_auxint c), (s_auxint s); cbn in Ei; try contradiction; destruct (h_aux c), (s_aux s); cbn in Ex; try contradiction; try reflexivity.
    destruct (h_op c), (s_op s); cbn in O; try contradiction; subst; reflexivity.
  Qed.
  Lemma gargs_ok c (e : word -> option gtype -> gen -> M (svalue * gen)) args : forall ws2 ts ws1 params st, slice_at g args (ws1 ++ ws2) ->
    Forall2 (fun w t => forall ty st, e w ty st h = (h, g_eval t ty st)) ws2 ts ->
    hg_args c e args (List.length ws2) (List.length ws1) params st h = (h, g_args c (fun a => g_eval a) (List.length ws1) ts params st).
  Proof.
    induction ws2 as [|w ws2 IH]; intros ts ws1 params st Sl F; inversion F as [|? t ? ts' E F']; subst; [reflexivity|]. cbn [List.length hg_args g_args].
    assert (A : at_ args (List.length ws1) h = (h, Ok w)) by (eapply at_ok; [exact S|exact Sl|]; rewrite nth_error_app2, Nat.sub_diag by auto; reflexivity).
    rewrite (mbind_ok _ _ _ _ _ A). destruct params as [|ty params]; [reflexivity|]. rewrite run_bind, mwrap_run, E. cbn [fst snd].
    destruct (g_eval t ty st) as [[v st']|x|x]; cbn [wrap bind fst snd]; try reflexivity.
    specialize (IH ts' (ws1 ++ [w]) params st'). rewrite <- app_assoc, app_length in IH. cbn [List.length app] in IH. rewrite Nat.add_1_r in IH.
    rewrite run_bind, (IH Sl F'). destruct (g_args _ _ _ _ _ _) as [[vs st'']|x|x]; reflexivity.
  Qed.
  Lemma eval_ok v : forall fuel w ty st, height v <= fuel -> value_at g w v -> hg_eval fuel w ty st h = (h, g_eval v ty st).
  Proof.
    induction v as [s IH|e|z|] using value_ind'; intros [|fuel] w ty st Hf V; try (cbn in Hf; lia); inversion V as [a c s0 ws G Eb O Et Ei Ex Sl F El Er|a e0 G|x|]; subst; cbn [hg_eval]; try reflexivity.
    rewrite (mbind_ok _ _ _ _ _ (get_sexpr_ok _ _ _ (S _ _ G))). cbn [g_eval]. rewrite (precheck_ok c s) by assumption.
    destruct (g_precheck s) as [[n o]|x|x]; cbn [lift mbind bind fst snd]; try reflexivity. destruct (wrap (n ++ str ": ") (op_params o ty)) as [params|x|x]; cbn [lift mbind bind]; try reflexivity.
    assert (L : sl_len (h_args c) = List.length ws) by apply Sl. rewrite L. assert (L' : List.length ws = List.length (s_args s)) by (clear -F; induction F; cbn; auto). rewrite L'.
    destruct (negb _); [reflexivity|]. rewrite <- L'.
    assert (A : Forall2 (fun w t => forall ty st, hg_eval fuel w ty st h = (h, g_eval t ty st)) ws (s_args s)).
    { cbn [height] in Hf. pose proof (heights _ _ Hf) as Hh. clear -IH F Hh. induction F as [|w t ws ts V F IHF]; constructor; inversion IH; subst; inversion Hh; subst; [|apply IHF; assumption]. intros ty st. eauto. }
    pose proof (gargs_ok n _ _ _ _ [] params st Sl A) as X. cbn [List.length] in X. rewrite run_bind, X. destruct (g_args n _ 0 (s_args s) params st) as [[vs st']|x|x]; cbn [bind fst snd]; try reflexivity.
    destruct (wrap (n ++ str ": ") (op_evaluate o vs)) as [v|x|x]; reflexivity.
  Qed.
  Lemma Generate_ok fuel q r : rule_height r <= fuel -> rule_at g (WRule (Some q)) r -> hg_Generate fuel (Some q) h = (h, Generate r).
  Proof.
    intros Hf R. unfold hg_Generate, hg_generate, Generate, g_generate. rewrite !run_bind.
    rewrite (Bytes_of fuel (PWord (WRule (Some q))) (NRule r) h) by (intros w; apply (Fprint_rule _ g); assumption).
    destruct (Bytes (NRule r)) as [b|x|x]; cbn [bind]; try reflexivity. destruct R as (q' & c & E & Gp & Vm & Vc & Eb & Vr). inversion E; subst. unfold rule_height in Hf.
    pose proof (get_rule_ok _ _ _ (S _ _ Gp)) as R. rewrite (mbind_ok _ _ _ _ _ R), run_bind, (eval_ok (r_match r) fuel) by (auto; lia).
    destruct (g_eval (r_match r) None _) as [[m st]|x|x]; cbn [bind fst snd]; try reflexivity. rewrite (mbind_ok _ _ _ _ _ R), Eb.
    destruct (h_cond c), (r_cond r); cbn in Vc; try contradiction; try reflexivity. destruct (r_block r); [|reflexivity].
    rewrite run_bind, (eval_ok (r_result r) fuel) by (auto; lia). destruct (g_eval (r_result r) _ _) as [[y st']|x|x]; reflexivity.
  Qed.
End Gen.
