(** C74: runs of the command over changed inputs.  Vocabulary: SpecRun.v, SpecCmd.v, SpecKill.v. *)
From Verif Require Import Text GoAst Ast Parse GoParser Smt Path SpecTree SpecExpand SpecPrint SpecUtf8 SpecSyntax SpecSource SpecTrees SpecCmd SpecErr SpecRun SpecKill
  SynFile SynExtend ParseFacts ParseUse CmdFacts CmdRun CmdParse CmdKill PropertiesParse PropertiesCmd.
From Coq Require Import Arith Bool Lia Permutation.
From Verif Require Import Cmd.

(** All rules the named files hold, in order. *)
Definition all_rules gp disk (names : list text) (rs : list rule) : Prop :=
  exists files, Forall2 (holds gp disk) names files /\ rs = List.concat files.

Lemma sifted_split {A} (P : A -> Prop) a : forall b k, sifted P (a ++ b) k -> exists k1 k2, sifted P a k1 /\ sifted P b k2 /\ k = k1 ++ k2.
Proof.
  induction a as [|x a IH]; intros b k S; cbn in S.
  - exists [], k. repeat split; [constructor|exact S].
  - inversion S; subst.
    + destruct (IH _ _ H3) as (k1 & k2 & A1 & A2 & ->). exists (x :: k1), k2. split; [constructor; assumption|]. split; [exact A2|reflexivity].
    + destruct (IH _ _ H3) as (k1 & k2 & A1 & A2 & ->). exists k1, k2. split; [constructor; assumption|]. split; [exact A2|reflexivity].
Qed.
Lemma sifted_dec {A} (P : A -> Prop) l k : sifted P l k -> forall a, In a l -> P a \/ ~ P a.
Proof. induction 1; intros x I; [destruct I|destruct I as [<-|I]; auto..]. Qed.
Lemma sifted_exists {A} (P : A -> Prop) l : (forall a, In a l -> P a \/ ~ P a) -> exists k, sifted P l k.
Proof.
  induction l as [|a l IH]; intros D; [exists []; constructor|]. destruct IH as [k S]; [intros x I; apply D; right; exact I|].
  destruct (D a (or_introl eq_refl)) as [Pa|Na]; [exists (a :: k); constructor; auto|exists k; constructor; auto].
Qed.
Lemma sifted_perm {A} (P : A -> Prop) l l' : Permutation l l' -> forall k k', sifted P l k -> sifted P l' k' -> Permutation k k'.
Proof.
  induction 1 as [|x l l' H IH|x y l|l l' l'' H1 IH1 H2 IH2]; intros k k' S S'.
  - inversion S; inversion S'; subst. constructor.
  - inversion S; subst; inversion S'; subst; try contradiction; [constructor|]; eauto.
  - repeat match goal with A : sifted P (_ :: _) _ |- _ => inversion A; clear A; subst end; try contradiction;
      match goal with A : sifted P l ?k1, B : sifted P l ?k2 |- _ => tryif constr_eq k1 k2 then fail else pose proof (sifted_fun P l _ _ A B); subst end;
      try apply perm_swap; apply Permutation_refl.
  - destruct (sifted_exists P l') as [m M]. { intros a I. apply (sifted_dec P l k S). eapply Permutation_in; [apply Permutation_sym; exact H1|exact I]. }
    exact (Permutation_trans (IH1 _ _ S M) (IH2 _ _ M S')).

Qed.
Definition script_list (rs : list rule) : list text := flat_map (fun r => match Generate r with Ok s => [s] | _ => [] end) rs.
Lemma outputs_scripts path i rs l log : outputs Generate path i rs l log -> map snd l = script_list rs.
Proof. induction 1 as [|i r rs ds s l log G D O IH|i r rs e l log G O IH]; cbn; [reflexivity|rewrite G, IH; reflexivity..]. Qed.
Lemma outputs_split gen path a : forall b i l log, outputs gen path i (a ++ b) l log ->
  exists l1 l2 log1 log2, outputs gen path i a l1 log1 /\ outputs gen path (i + List.length a) b l2 log2 /\ l = l1 ++ l2.
Proof.
  induction a as [|r a IH]; intros b i l log O; cbn [app] in O.
  - exists [], l, [], log. rewrite Nat.add_0_r. repeat split; [constructor|exact O].
  - inversion O; subst; match goal with X : outputs gen path _ (a ++ b) _ _ |- _ => rename X into Ox end.
    + destruct (IH _ _ _ _ Ox) as (l1 & l2 & g1 & g2 & A & B & ->). eexists _, l2, _, g2. split; [eapply out_script; eassumption|].
      cbn [List.length]. rewrite <- plus_n_Sm. split; [exact B|reflexivity].
    + destruct (IH _ _ _ _ Ox) as (l1 & l2 & g1 & g2 & A & B & ->). eexists _, l2, _, g2. split; [eapply out_none; eassumption|].
      cbn [List.length]. rewrite <- plus_n_Sm. split; [exact B|reflexivity].
Qed.
Lemma outputs_fun path i rs l log : outputs Generate path i rs l log -> forall l' log', outputs Generate path i rs l' log' -> l = l'.
Proof.
  induction 1 as [|i r rs ds s l log G D O IH|i r rs e l log G O IH]; intros l' log' O'; inversion O'; subst; try congruence.
  - assert (s0 = s) as -> by congruence. rewrite (four_digits_unique i ds0 ds) by assumption. f_equal. eauto.
  - eauto.
Qed.
Lemma run_files gp disk failing outdir names w w' all : never_nil gp -> all_rules gp disk names all ->
  run (parse_disk gp disk) Join failing outdir names w = Exit w' None ->
  exists k l log, sifted simple_rule all k /\ outputs Generate (Join outdir) 0 (flat_map instances k) l log /\ w_files w' = w_files w ++ l.
Proof.
  intros W (files & F & ->) H. pose proof (run_cases gp disk failing outdir names w W) as R. rewrite H in R.
  destruct R as (rs & l & log & pre & (k & (files' & F' & Sf) & _ & ->) & O & Wf & _). rewrite (files_fun gp disk _ _ F _ F').
  exists k, l, log. auto.
Qed.

(** Adding rules at the end, in the last file or in further files: the scripts there were
    come again, under the same names, before all others; the others have names of their own. *)
Theorem C74_appending :
  forall gp disk disk' failing failing' outdir names names' w w1 w2 all more, never_nil gp ->
    all_rules gp disk names all -> all_rules gp disk' names' (all ++ more) ->
    run (parse_disk gp disk) Join failing outdir names w = Exit w1 None ->
    run (parse_disk gp disk') Join failing' outdir names' w = Exit w2 None ->
    exists written added, w_files w1 = w_files w ++ written /\ w_files w2 = w_files w ++ written ++ added /\
      NoDup (map fst (written ++ added)).
Proof.
  intros gp disk disk' failing failing' outdir names names' w w1 w2 all more W A A' H H'.
  destruct (run_files _ _ _ _ _ _ _ _ W A H) as (k & l & log & Sf & O & Wf). destruct (run_files _ _ _ _ _ _ _ _ W A' H') as (k' & l' & log' & Sf' & O' & Wf').
  apply sifted_split in Sf'. destruct Sf' as (k1 & k2 & S1 & _ & ->). rewrite (sifted_fun _ _ _ _ S1 Sf) in *. rewrite flat_map_app in O'.
  pose proof (outputs_nodup _ _ _ _ _ O') as N.
  apply outputs_split in O'. destruct O' as (l1 & l2 & g1 & g2 & O1 & _ & ->). rewrite <- (outputs_fun _ _ _ _ _ O _ _ O1) in *.
  exists l, l2. auto.
Qed.
Print Assumptions C74_appending.

(** In another order the same rules give the same scripts, each as often as before; only
    the numbers in the names change. *)
Theorem C74_reordering :
  forall gp disk disk' failing failing' outdir outdir' names names' w w' w1 w2 all all', never_nil gp ->
    all_rules gp disk names all -> all_rules gp disk' names' all' -> Permutation all all' ->
    run (parse_disk gp disk) Join failing outdir names w = Exit w1 None ->
    run (parse_disk gp disk') Join failing' outdir' names' w' = Exit w2 None ->
    exists written written', w_files w1 = w_files w ++ written /\ w_files w2 = w_files w' ++ written' /\
      Permutation (map snd written) (map snd written').
Proof.
  intros gp disk disk' failing failing' outdir outdir' names names' w w' w1 w2 all all' W A A' Pm H H'.
  destruct (run_files _ _ _ _ _ _ _ _ W A H) as (k & l & log & Sf & O & Wf). destruct (run_files _ _ _ _ _ _ _ _ W A' H') as (k' & l' & log' & Sf' & O' & Wf').
  exists l, l'. split; [exact Wf|]. split; [exact Wf'|]. rewrite (outputs_scripts _ _ _ _ _ O), (outputs_scripts _ _ _ _ _ O').
  apply Permutation_flat_map, Permutation_flat_map. eapply sifted_perm; eauto.
Qed.
Print Assumptions C74_reordering.

Example C74_example : exists all more w1 w2 s0 s1 s3,
  all_rules ParseExpr ex_disk [str "a.rules"] all /\ all_rules ParseExpr ex_disk ex_names (all ++ more) /\
  all_rules ParseExpr ex_disk [str "b.rules"; str "a.rules"] (more ++ all) /\ List.length more = 2 /\
  run (parse_disk ParseExpr ex_disk) Join no_failure (str "out/") [str "a.rules"] [] = Exit w1 None /\
  run (parse_disk ParseExpr ex_disk) Join no_failure (str "out/") ex_names [] = Exit w2 None /\
  w_files w1 = [(str "out/0000.smt2", s0); (str "out/0001.smt2", s1)] /\
  w_files w2 = [(str "out/0000.smt2", s0); (str "out/0001.smt2", s1); (str "out/0003.smt2", s3)].
Proof.
  assert (X : exists fa fb, parse_disk ParseExpr ex_disk (str "a.rules") = Ok fa /\ parse_disk ParseExpr ex_disk (str "b.rules") = Ok fb /\ List.length (f_rules fb) = 2)
    by (eexists _, _; split; [vm_compute; reflexivity|split; vm_compute; reflexivity]).
  destruct X as (fa & fb & A & B & L). apply (disk_ok ParseExpr) in A. apply (disk_ok ParseExpr) in B.
  exists (f_rules fa), (f_rules fb). eexists _, _, _, _, _.
  split; [exists [f_rules fa]; split; [repeat constructor; assumption|cbn; rewrite app_nil_r; reflexivity]|].
  split; [exists [f_rules fa; f_rules fb]; split; [repeat constructor; assumption|cbn; rewrite app_nil_r; reflexivity]|].
  split; [exists [f_rules fb; f_rules fa]; split; [repeat constructor; assumption|cbn; rewrite app_nil_r; reflexivity]|].
  split; [exact L|]. split; [vm_compute; reflexivity|]. split; [vm_compute; reflexivity|]. split; vm_compute; reflexivity.
Qed.

(** What was in the output directory stays there, unless the run writes that very file. *)
Theorem C74_other_files_stay :
  forall gp disk failing outdir names w w', never_nil gp ->
    run (parse_disk gp disk) Join failing outdir names w = Exit w' None ->
    exists rs, run_rules gp disk names rs /\
      forall p, (forall i r s ds, nth_error rs i = Some r -> Generate r = Ok s -> four_digits i ds -> p <> Join outdir (ds ++ str ".smt2")) ->
        contents (w_files w') p = contents (w_files w) p.
Proof.
  intros gp disk failing outdir names w w' W H. destruct (C44_output_files gp disk failing outdir names w w' W H) as (rs & l & R & Wf & _ & E).
  exists rs. split; [exact R|]. intros p N. rewrite Wf, contents_app. assert (X : contents l p = None); [|rewrite X; reflexivity].
  apply contents_none. intros I. apply in_map_iff in I. destruct I as ([q s] & <- & I). apply E in I. destruct I as (i & r & ds & Hn & G & D & ->).
  cbn in N. exact (N i r s ds Hn G D eq_refl).
Qed.
Print Assumptions C74_other_files_stay.

(** So one cannot tell from the output directory which scripts belong to the rules: after a
    run over fewer rules, scripts of a former run are still there. *)
Lemma ex_stale : exists w1 w2 s, run (parse_disk ParseExpr ex_disk) Join no_failure (str "out/") ex_names [] = Exit w1 None /\
  run (parse_disk ParseExpr ex_disk) Join no_failure (str "out/") [] w1 = Exit w2 None /\ contents (w_files w2) (str "out/0000.smt2") = Some s.
Proof. eexists _, _, _. split; [vm_compute; reflexivity|]. split; [vm_compute; reflexivity|]. vm_compute. reflexivity. Qed.
Theorem C74_directory_is_current_refuted :
  ~ (forall gp disk failing outdir names names' w1 w2, never_nil gp ->
      run (parse_disk gp disk) Join failing outdir names [] = Exit w1 None ->
      run (parse_disk gp disk) Join failing outdir names' w1 = Exit w2 None ->
      forall p s, contents (w_files w2) p = Some s ->
        exists rs r, run_rules gp disk names' rs /\ In r rs /\ Generate r = Ok s).
Proof.
  intros F.
  destruct ex_stale as (w1 & w2 & s & H1 & H2 & C).
  destruct (F ParseExpr ex_disk no_failure (str "out/") ex_names [] w1 w2 C43_go_parser H1 H2 _ _ C) as (rs & r & (k & (files & Ff & Sf) & _ & ->) & I & _).
  inversion Ff; subst. inversion Sf; subst. destruct I.
Qed.
Print Assumptions C74_directory_is_current_refuted.
