(** Walk on memory that changes under way: the program and the relation of SpecVisit.v. *)
From Verif Require Import Text GoAst Ast Expand Heap HeapVisit SpecHeap SpecVisit HeapFacts VisitFacts.
From Coq Require Import Arith Lia Bool.

Lemma bind_inv {A B} (m : M A) (k : A -> M B) h h' b : run (mbind m k) h = (h', Ok b) -> exists h1 a, run m h = (h1, Ok a) /\ run (k a) h1 = (h', Ok b).
Proof. rewrite run_bind. destruct (run m h) as [h1 [a|e|x]]; intros E; try discriminate. eauto. Qed.
Lemma get_inv p h h' c : run (get p) h = (h', Ok c) -> h' = h /\ nth_error h p = Some c.
Proof. rewrite get_run. destruct (nth_error h p); intros E; inversion E; auto. Qed.
Lemma get_sexpr_inv p h h' c : run (get_sexpr p) h = (h', Ok c) -> h' = h /\ nth_error h p = Some (CSExpr c).
Proof. intros E. unfold get_sexpr in E. apply bind_inv in E as (h1 & a & E1 & E2). apply get_inv in E1 as [-> G]. destruct a; inversion E2; subst; auto. Qed.
Lemma get_rule_inv p h h' c : run (get_rule p) h = (h', Ok c) -> h' = h /\ nth_error h p = Some (CRule c).
Proof. intros E. unfold get_rule in E. apply bind_inv in E as (h1 & a & E1 & E2). apply get_inv in E1 as [-> G]. destruct a; inversion E2; subst; auto. Qed.
Lemma at_inv sl i h h' w : run (at_ sl i) h = (h', Ok w) -> h' = h /\ element h sl i w.
Proof.
  intros E. unfold at_ in E. destruct (i <? sl_len sl); [|discriminate]. apply bind_inv in E as (h1 & a & E1 & E2). unfold get_arr in E1. apply bind_inv in E1 as (h2 & c & E3 & E4).
  apply get_inv in E3 as [-> G]. destruct c; inversion E4; subst. destruct (nth_error a (sl_off sl + i)) eqn:N; inversion E2; subst. split; [reflexivity|]. exists a. auto.
Qed.
Lemma at_element sl i h w : element h sl i w -> i < sl_len sl -> run (at_ sl i) h = (h, Ok w).
Proof.
  intros (l & G & N) L. unfold at_. apply Nat.ltb_lt in L. rewrite L. unfold get_arr. rewrite run_bind. rewrite (mbind_ok _ _ _ _ _ (get_ok _ _ _ G)). cbn. rewrite N. reflexivity.
Qed.

Section T.
  Context {V S : Type}.
  Variable visit : V -> hnode -> S -> M (option V * S).
  Notation lg := (h_logging visit).
  Notation calls_t := (list (V * hnode)).
  Lemma log_inv v n s (log : calls_t) h h' o st : run (lg v n (s, log)) h = (h', Ok (o, st)) -> exists s', st = (s', log ++ [(v, n)]) /\ run (visit v n s) h = (h', Ok (o, s')).
  Proof.
    intros E. unfold h_logging in E. apply bind_inv in E as (h1 & [o1 s1] & E1 & E2). inversion E2; subst. exists s1. auto.
  Qed.
  Lemma log_ok v n s (log : calls_t) h h' o s' : run (visit v n s) h = (h', Ok (o, s')) -> run (lg v n (s, log)) h = (h', Ok (o, (s', log ++ [(v, n)]))).
  Proof. intros E. unfold h_logging. cbn [fst snd]. rewrite (mbind_ok _ _ _ _ _ E). reflexivity. Qed.
  Definition toured (T : S -> heap -> calls_t -> S -> heap -> Prop) (s : S) (log : calls_t) h h' (st : S * calls_t) : Prop :=
    exists s' calls, st = (s', log ++ calls) /\ T s h calls s' h'.

  (** The program makes a tour. *)
  Lemma t_part v p s log h h' st : run (h_visit_part lg v p (s, log)) h = (h', Ok st) -> toured (Tour visit v (HPart p)) s log h h' st.
  Proof.
    intros E. unfold h_visit_part in E. apply bind_inv in E as (h1 & [o s1] & E1 & E2). apply log_inv in E1 as (s2 & -> & E1). cbn [fst snd] in E2.
    destruct o as [v'|].
    - destruct p; inversion E2; subst; eexists _, _; (split; [reflexivity|]); eapply tour_leaf; (exact E1 || exact Logic.I).
    - inversion E2; subst. eexists _, _. split; [reflexivity|]. apply tour_cut. exact E1.
  Qed.
  Lemma t_parts v a : forall k j s log h h' st, run (h_visit_parts lg v a k j (s, log)) h = (h', Ok st) -> toured (Parts visit v a (seq j k)) s log h h' st.
  Proof.
    induction k as [|k IH]; intros j s log h h' st E; cbn [h_visit_parts seq] in *.
    - inversion E; subst. exists s, []. rewrite app_nil_r. split; [reflexivity|constructor].
    - apply bind_inv in E as (h1 & c & E1 & E2). apply get_inv in E1 as [-> G]. destruct c; try discriminate. destruct (nth_error ps j) eqn:N; [|discriminate].
      apply bind_inv in E2 as (h2 & st2 & E3 & E4). apply t_part in E3 as (s2 & c2 & -> & T2). apply IH in E4 as (s3 & c3 & -> & T3).
      exists s3, (c2 ++ c3). rewrite app_assoc. split; [reflexivity|]. econstructor; eassumption.
  Qed.
  Lemma t_op v o s log h h' st : run (h_visit_op lg v o (s, log)) h = (h', Ok st) -> toured (Tour visit v (HOp o)) s log h h' st.
  Proof.
    intros E. unfold h_visit_op in E. apply bind_inv in E as (h1 & [r s1] & E1 & E2). apply log_inv in E1 as (s2 & -> & E1). cbn [fst snd] in E2.
    destruct r as [v'|].
    - destruct o; [|apply bind_inv in E2 as (h2 & c & E3 & E4); apply get_inv in E3 as [-> G]; destruct c; try discriminate|discriminate].
      + inversion E2; subst. eexists _, _. split; [reflexivity|]. eapply tour_leaf; (exact E1 || exact Logic.I).
      + apply t_parts in E4 as (s3 & c3 & -> & T3). exists s3, ((v, HOp (HParts arr)) :: c3). rewrite <- app_assoc. split; [reflexivity|]. eapply tour_parts; eassumption.
    - inversion E2; subst. eexists _, _. split; [reflexivity|]. apply tour_cut. exact E1.
  Qed.
  Lemma t_each (r : bool) v (wk : word -> S * calls_t -> M (S * calls_t)) xs :
    (forall w s log h h' st, run (wk w (s, log)) h = (h', Ok st) -> is_rule w = r /\ toured (Tour visit v (HWord w)) s log h h' st) ->
    forall k j s log h h' st, run (h_visit_each wk xs k j (s, log)) h = (h', Ok st) -> toured (Each visit r v xs (seq j k)) s log h h' st.
  Proof.
    intros W. induction k as [|k IH]; intros j s log h h' st E; cbn [h_visit_each seq] in *.
    - inversion E; subst. exists s, []. rewrite app_nil_r. split; [reflexivity|constructor].
    - apply bind_inv in E as (h1 & w & E1 & E2). apply at_inv in E1 as [-> El]. apply bind_inv in E2 as (h2 & st2 & E3 & E4).
      apply W in E3 as (R & s2 & c2 & -> & T2). apply IH in E4 as (s3 & c3 & -> & T3).
      exists s3, (c2 ++ c3). rewrite app_assoc. split; [reflexivity|]. econstructor; eassumption.
  Qed.
  Lemma t_value : forall fuel v w s log h h' st, run (h_visit_value lg fuel v w (s, log)) h = (h', Ok st) -> is_rule w = false /\ toured (Tour visit v (HWord w)) s log h h' st.
  Proof.
    induction fuel as [|fuel IH]; intros v w s log h h' st E; cbn [h_visit_value] in E; [discriminate|]. destruct (is_rule w) eqn:R; [discriminate|]. split; [reflexivity|].
    apply bind_inv in E as (h1 & [o s1] & E1 & E2). apply log_inv in E1 as (s2 & -> & E1). cbn [fst snd] in E2.
    destruct o as [v'|]; [|inversion E2; subst; eexists _, _; (split; [reflexivity|]); apply tour_cut; exact E1].
    destruct w as [[p|]| | | |]; try discriminate; try (inversion E2; subst; eexists _, _; (split; [reflexivity|]); eapply tour_leaf; (exact E1 || exact Logic.I)).
    apply bind_inv in E2 as (h2 & c & E3 & E4). apply get_sexpr_inv in E3 as [-> G]. apply bind_inv in E4 as (h3 & st3 & E5 & E6). apply t_op in E5 as (s3 & c3 & -> & T3).
    apply bind_inv in E6 as (h4 & c4 & E7 & E8). apply get_sexpr_inv in E7 as [-> G2].
    apply (t_each false v' (h_visit_value lg fuel v') (h_args c4) (fun w s log h h' st => IH v' w s log h h' st)) in E8 as (s5 & c5 & -> & T5).
    exists s5, ((v, HWord (WSExpr (Some p))) :: c3 ++ c5). split; [rewrite <- !app_assoc; reflexivity|]. eapply tour_sexpr; eassumption.
  Qed.
  Lemma t_rule fuel v w s log h h' st : run (h_visit_rule lg fuel v w (s, log)) h = (h', Ok st) -> is_rule w = true /\ toured (Tour visit v (HWord w)) s log h h' st.
  Proof.
    intros E. unfold h_visit_rule in E. destruct (is_rule w) eqn:R; [|discriminate]. split; [reflexivity|]. cbn [negb] in E.
    apply bind_inv in E as (h1 & [o s1] & E1 & E2). apply log_inv in E1 as (s2 & -> & E1). cbn [fst snd] in E2.
    destruct o as [v'|]; [|inversion E2; subst; eexists _, _; (split; [reflexivity|]); apply tour_cut; exact E1].
    destruct w as [| | | |[p|]]; try discriminate.
    apply bind_inv in E2 as (h2 & c & E3 & E4). apply get_rule_inv in E3 as [-> G]. apply bind_inv in E4 as (h3 & st3 & E5 & E6). apply t_value in E5 as (R1 & s3 & c3 & -> & T3).
    apply bind_inv in E6 as (h4 & c4 & E7 & E8). apply get_rule_inv in E7 as [-> G2]. apply t_value in E8 as (R2 & s5 & c5 & -> & T5).
    exists s5, ((v, HWord (WRule (Some p))) :: c3 ++ c5). split; [rewrite <- !app_assoc; reflexivity|]. eapply tour_rule; eassumption.
  Qed.
  Lemma t_file fuel v f s log h h' st : run (h_visit_file lg fuel v f (s, log)) h = (h', Ok st) -> toured (Tour visit v (HFile f)) s log h h' st.
  Proof.
    intros E. unfold h_visit_file in E. apply bind_inv in E as (h1 & [o s1] & E1 & E2). apply log_inv in E1 as (s2 & -> & E1). cbn [fst snd] in E2.
    destruct o as [v'|]; [|inversion E2; subst; eexists _, _; (split; [reflexivity|]); apply tour_cut; exact E1].
    destruct f as [p|]; [|discriminate]. apply bind_inv in E2 as (h2 & c & E3 & E4). apply get_inv in E3 as [-> G]. destruct c; try discriminate.
    apply (t_each true v' (h_visit_rule lg fuel v') rules (fun w s log h h' st => t_rule fuel v' w s log h h' st)) in E4 as (s5 & c5 & -> & T5).
    exists s5, ((v, HFile (Some p)) :: c5). split; [rewrite <- !app_assoc; reflexivity|]. eapply tour_file; eassumption.
  Qed.
  Lemma t_walk fuel v n s log h h' st : run (h_Walk lg fuel v n (s, log)) h = (h', Ok st) -> toured (Tour visit v n) s log h h' st.
  Proof.
    destruct n as [f|w|o|p]; cbn [h_Walk]; intros E; [eapply t_file; exact E| |eapply t_op; exact E|eapply t_part; exact E].
    destruct w; (eapply t_rule; exact E) || (eapply t_value; exact E).
  Qed.

  (** Every tour is made, with a deep enough stack. *)
  Scheme Tour_mind := Minimality for Tour Sort Prop
    with Each_mind := Minimality for Each Sort Prop
    with Parts_mind := Minimality for Parts Sort Prop.
  Combined Scheme tours_mind from Tour_mind, Each_mind, Parts_mind.
  Definition made (f : nat -> S * calls_t -> M (S * calls_t)) s h calls s' h' : Prop :=
    exists k, forall fuel, k <= fuel -> forall log, run (f fuel (s, log)) h = (h', Ok (s', log ++ calls)).
  Lemma tours_made :
    (forall v n s h calls s' h', Tour visit v n s h calls s' h' -> made (fun fuel => h_Walk lg fuel v n) s h calls s' h') /\
    (forall r v xs js s h calls s' h', Each visit r v xs js s h calls s' h' -> forall j k, js = seq j k -> j + k <= sl_len xs ->
       made (fun fuel => h_visit_each (if r then h_visit_rule lg fuel v else h_visit_value lg fuel v) xs k j) s h calls s' h') /\
    (forall v a js s h calls s' h', Parts visit v a js s h calls s' h' -> forall j k, js = seq j k -> made (fun _ => h_visit_parts lg v a k j) s h calls s' h').
  Proof.
    apply tours_mind.
    - (* cut *) intros v n s h s' h' E. exists 1. intros fuel Hf log. apply (log_ok _ _ _ log) in E.
      destruct fuel as [|fuel]; [lia|]. destruct n as [f|[]|o|p]; cbn [h_Walk]; try unfold h_visit_file; try unfold h_visit_rule; try unfold h_visit_op; try unfold h_visit_part; cbn [h_visit_value is_rule negb];
        rewrite (mbind_ok _ _ _ _ _ E); reflexivity.
    - (* leaf *) intros v v' n s h s' h' E L. exists 1. intros fuel Hf log. apply (log_ok _ _ _ log) in E.
      destruct fuel as [|fuel]; [lia|]. destruct n as [f|[]|[]|[]]; cbn in L; try contradiction; cbn [h_Walk]; try unfold h_visit_op; try unfold h_visit_part; cbn [h_visit_value is_rule negb];
        rewrite (mbind_ok _ _ _ _ _ E); reflexivity.
    - (* file *) intros v v' p s h s1 h1 rules calls s' h' E G _ IH. destruct (IH 0 (sl_len rules) eq_refl (le_n _)) as [k K]. exists k. intros fuel Hf log. apply (log_ok _ _ _ log) in E.
      cbn [h_Walk]. unfold h_visit_file. rewrite (mbind_ok _ _ _ _ _ E). cbn [fst snd]. rewrite (mbind_ok _ _ _ _ _ (get_ok _ _ _ G)). rewrite (K fuel Hf), <- app_assoc. reflexivity.
    - (* rule *) intros v v' p s h s1 h1 c1 calls1 s2 h2 c2 calls2 s' h' E G1 R1 _ [k1 K1] G2 R2 _ [k2 K2]. exists (k1 + k2). intros fuel Hf log. apply (log_ok _ _ _ log) in E.
      cbn [h_Walk]. unfold h_visit_rule. cbn [is_rule negb]. rewrite (mbind_ok _ _ _ _ _ E). cbn [fst snd]. rewrite (mbind_ok _ _ _ _ _ (get_rule_ok _ _ _ G1)).
      assert (W : forall w, is_rule w = false -> h_Walk lg fuel v' (HWord w) = h_visit_value lg fuel v' w) by (intros [] R; try reflexivity; discriminate).
      specialize (K1 fuel ltac:(lia) (log ++ [(v, HWord (WRule (Some p)))])). rewrite W in K1 by exact R1. rewrite (mbind_ok _ _ _ _ _ K1). rewrite (mbind_ok _ _ _ _ _ (get_rule_ok _ _ _ G2)).
      specialize (K2 fuel ltac:(lia)). rewrite W in K2 by exact R2. rewrite K2, <- !app_assoc. reflexivity.
    - (* sexpr *) intros v v' p s h s1 h1 c1 calls1 s2 h2 c2 calls2 s' h' E G1 _ [k1 K1] G2 _ IH. destruct (IH 0 _ eq_refl (le_n _)) as [k2 K2]. exists (1 + (k1 + k2)). intros fuel Hf log. apply (log_ok _ _ _ log) in E.
      destruct fuel as [|fuel]; [lia|]. cbn [h_Walk h_visit_value is_rule]. rewrite (mbind_ok _ _ _ _ _ E). cbn [fst snd]. rewrite (mbind_ok _ _ _ _ _ (get_sexpr_ok _ _ _ G1)).
      specialize (K1 fuel ltac:(lia) (log ++ [(v, HWord (WSExpr (Some p)))])). cbn [h_Walk] in K1. rewrite (mbind_ok _ _ _ _ _ K1). rewrite (mbind_ok _ _ _ _ _ (get_sexpr_ok _ _ _ G2)).
      rewrite (K2 fuel ltac:(lia)), <- !app_assoc. reflexivity.
    - (* parts *) intros v v' a s h s1 h1 ps calls s' h' E G _ IH. destruct (IH 0 _ eq_refl) as [k K]. exists k. intros fuel Hf log. apply (log_ok _ _ _ log) in E.
      cbn [h_Walk]. unfold h_visit_op. rewrite (mbind_ok _ _ _ _ _ E). cbn [fst snd]. rewrite (mbind_ok _ _ _ _ _ (get_ok _ _ _ G)). rewrite (K fuel Hf), <- app_assoc. reflexivity.
    - intros r v xs s h j k E L. destruct k; [|discriminate]. exists 0. intros fuel _ log. rewrite app_nil_r. reflexivity.
    - intros r v xs j js s h w calls1 s1 h1 calls2 s' h' El R _ [k1 K1] _ IH j0 k E L. destruct k as [|k]; [discriminate|]. cbn [seq] in E. injection E as <- ->.
      destruct (IH (Datatypes.S j) k eq_refl ltac:(lia)) as [k2 K2]. exists (k1 + k2). intros fuel Hf log. cbn [h_visit_each]. rewrite (mbind_ok _ _ _ _ _ (at_element _ _ _ _ El ltac:(lia))).
      assert (W : h_Walk lg fuel v (HWord w) = (if r then h_visit_rule lg fuel v else h_visit_value lg fuel v) w) by (subst r; destruct w; reflexivity).
      specialize (K1 fuel ltac:(lia) log). cbv beta in K1. rewrite W in K1. rewrite (mbind_ok _ _ _ _ _ K1). rewrite (K2 fuel ltac:(lia)), <- app_assoc. reflexivity.
    - intros v a s h j k E. destruct k; [|discriminate]. exists 0. intros fuel _ log. rewrite app_nil_r. reflexivity.
    - intros v a j js s h ps p calls1 s1 h1 calls2 s' h' G N _ [k1 K1] _ IH j0 k E. destruct k as [|k]; [discriminate|]. cbn [seq] in E. injection E as <- ->.
      destruct (IH (Datatypes.S j) k eq_refl) as [k2 K2]. exists (k1 + k2). intros fuel Hf log. cbn [h_visit_parts]. rewrite (mbind_ok _ _ _ _ _ (get_ok _ _ _ G)). rewrite N.
      specialize (K1 fuel ltac:(lia) log). cbn [h_Walk] in K1. rewrite (mbind_ok _ _ _ _ _ K1). rewrite (K2 fuel ltac:(lia)), <- app_assoc. reflexivity.
  Qed.

  (** Logging changes nothing else. *)
  Definition forget (x : heap * res (S * calls_t)) : heap * res S :=
    (fst x, match snd x with Ok st => Ok (fst st) | Err e => Err e | Panic m => Panic m end).
  Lemma forget_bind {A} (m : M A) (k1 : A -> M (S * calls_t)) (k2 : A -> M S) h : (forall a h, run (k2 a) h = forget (run (k1 a) h)) -> run (mbind m k2) h = forget (run (mbind m k1) h).
  Proof. intros H. rewrite !run_bind. destruct (run m h) as [h1 [a|e|x]]; [apply H|reflexivity|reflexivity]. Qed.
  Lemma forget_step (m1 : M (S * calls_t)) (m2 : M S) (k1 : S * calls_t -> M (S * calls_t)) (k2 : S -> M S) h : run m2 h = forget (run m1 h) -> (forall st h, run (k2 (fst st)) h = forget (run (k1 st) h)) ->
    run (mbind m2 k2) h = forget (run (mbind m1 k1) h).
  Proof. intros E H. rewrite !run_bind, E. destruct (run m1 h) as [h1 [a|e|x]]; cbn [forget fst snd]; [apply H|reflexivity|reflexivity]. Qed.
  Lemma forget_visit v n st h (k1 : option V * (S * calls_t) -> M (S * calls_t)) (k2 : option V * S -> M S) :
    (forall o st h, run (k2 (o, fst st)) h = forget (run (k1 (o, st)) h)) -> run (mbind (visit v n (fst st)) k2) h = forget (run (mbind (lg v n st) k1) h).
  Proof.
    intros H. rewrite !run_bind. unfold h_logging. rewrite run_bind. destruct (run (visit v n (fst st)) h) as [h1 [[o s1]|e|x]]; cbn; [|reflexivity|reflexivity].
    exact (H o (s1, snd st ++ [(v, n)]) h1).
  Qed.
  Lemma f_part v p st h : run (h_visit_part visit v p (fst st)) h = forget (run (h_visit_part lg v p st) h).
  Proof. unfold h_visit_part. apply forget_visit. intros [v'|] st1 h1; cbn [fst snd]; [destruct p|]; reflexivity. Qed.
  Lemma f_parts v a : forall k j st h, run (h_visit_parts visit v a k j (fst st)) h = forget (run (h_visit_parts lg v a k j st) h).
  Proof.
    induction k as [|k IH]; intros j st h; [reflexivity|]. cbn [h_visit_parts]. apply forget_bind. intros c h1. destruct c; try reflexivity. destruct (nth_error ps j); [|reflexivity].
    apply forget_step; [apply f_part|]. intros st2 h2. apply IH.
  Qed.
  Lemma f_op v o st h : run (h_visit_op visit v o (fst st)) h = forget (run (h_visit_op lg v o st) h).
  Proof.
    unfold h_visit_op. apply forget_visit. intros [v'|] st1 h1; cbn [fst snd]; [|reflexivity]. destruct o; try reflexivity. apply forget_bind. intros c h2. destruct c; try reflexivity. apply f_parts.
  Qed.
  Lemma f_each (w2 : word -> S -> M S) (w1 : word -> S * calls_t -> M (S * calls_t)) xs : (forall w st h, run (w2 w (fst st)) h = forget (run (w1 w st) h)) ->
    forall k j st h, run (h_visit_each w2 xs k j (fst st)) h = forget (run (h_visit_each w1 xs k j st) h).
  Proof.
    intros W. induction k as [|k IH]; intros j st h; [reflexivity|]. cbn [h_visit_each]. apply forget_bind. intros w h1. apply forget_step; [apply W|]. intros st2 h2. apply IH.
  Qed.
  Lemma f_value : forall fuel v w st h, run (h_visit_value visit fuel v w (fst st)) h = forget (run (h_visit_value lg fuel v w st) h).
  Proof.
    induction fuel as [|fuel IH]; intros v w st h; [reflexivity|]. cbn [h_visit_value]. destruct (is_rule w); [reflexivity|]. apply forget_visit. intros [v'|] st1 h1; cbn [fst snd]; [|reflexivity].
    destruct w as [[p|]| | | |]; try reflexivity. apply forget_bind. intros c h2. apply forget_step; [apply f_op|]. intros st3 h3. apply forget_bind. intros c2 h4. apply f_each. intros. apply IH.
  Qed.
  Lemma f_rule fuel v w st h : run (h_visit_rule visit fuel v w (fst st)) h = forget (run (h_visit_rule lg fuel v w st) h).
  Proof.
    unfold h_visit_rule. destruct (negb (is_rule w)); [reflexivity|]. apply forget_visit. intros [v'|] st1 h1; cbn [fst snd]; [|reflexivity].
    destruct w as [| | | |[p|]]; try reflexivity. apply forget_bind. intros c h2. apply forget_step; [apply f_value|]. intros st3 h3. apply forget_bind. intros c2 h4. apply f_value.
  Qed.
  Lemma f_file fuel v f st h : run (h_visit_file visit fuel v f (fst st)) h = forget (run (h_visit_file lg fuel v f st) h).
  Proof.
    unfold h_visit_file. apply forget_visit. intros [v'|] st1 h1; cbn [fst snd]; [|reflexivity]. destruct f as [p|]; [|reflexivity].
    apply forget_bind. intros c h2. destruct c; try reflexivity. apply f_each. intros. apply f_rule.
  Qed.
  Lemma f_walk fuel v n st h : run (h_Walk visit fuel v n (fst st)) h = forget (run (h_Walk lg fuel v n st) h).
  Proof. destruct n as [f|[]|o|p]; cbn [h_Walk]; auto using f_file, f_value, f_rule, f_op, f_part. Qed.
  Lemma walk_tour fuel v n s h h' s' : run (h_Walk visit fuel v n s) h = (h', Ok s') -> exists calls, Tour visit v n s h calls s' h' /\ run (h_Walk lg fuel v n (s, [])) h = (h', Ok (s', calls)).
  Proof.
    intros E. change s with (fst (s, @nil (V * hnode))) in E. rewrite f_walk in E. destruct (run (h_Walk lg fuel v n (s, [])) h) as [h1 [st|e|m]] eqn:R; unfold forget in E; cbn in E; inversion E; subst.
    pose proof (t_walk _ _ _ _ _ _ _ _ R) as (s1 & calls & -> & T). exists calls. split; [exact T|reflexivity].
  Qed.
End T.
