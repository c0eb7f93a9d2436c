(** The order of a run's actions (C48), and runs that are killed (C53).  Vocabulary:
    SpecRun.v, SpecCmd.v, SpecKill.v. *)
From Verif Require Import Text GoAst Ast Expand Printer Parse GoParser Smt Path SpecTree TreeFacts SpecExpand ExpandFacts
  SpecPrint PrintFacts SpecSmt SpecUtf8 SpecSyntax SpecCmd SpecErr SpecRun SpecKill CmdFacts CmdRun CmdParse CmdKill PropertiesCmd.
From Coq Require Import Arith Lia.
From Verif Require Import Cmd.

(** C48: all that a run does, in order, whether it succeeds, a file cannot be read or
    parsed, the groups of a rule do not agree, or a write fails. *)
Theorem C48_history :
  forall gp disk failing outdir names w w' err, never_nil gp ->
    run (parse_disk gp disk) Join failing outdir names w = Exit w' err ->
    match err with
    | None => exists files k rs log evs, Forall2 (holds gp disk) names files /\ sifted simple_rule (List.concat files) k /\
        Forall (fun r => uniform (rule_groups r)) k /\ rs = flat_map instances k /\ load_log names files k rs log /\
        history Generate (Join outdir) 0 rs evs /\ w' = w ++ map Logged log ++ evs
    | Some e =>
        (exists before n after files log, names = before ++ n :: after /\ Forall2 (holds gp disk) before files /\ unreadable gp disk n /\
           file_log before files log /\ w' = w ++ map Logged log) \/
        (exists files k r m n log, Forall2 (holds gp disk) names files /\ sifted simple_rule (List.concat files) k /\
           In r k /\ In m (rule_groups r) /\ In n (rule_groups r) /\ m <> n /\
           clash_log names files k log /\ w' = w ++ map Logged log) \/
        (exists files k log pre r post evs ds s part, Forall2 (holds gp disk) names files /\ sifted simple_rule (List.concat files) k /\
           Forall (fun r => uniform (rule_groups r)) k /\ flat_map instances k = pre ++ r :: post /\ load_log names files k (pre ++ r :: post) log /\
           history Generate (Join outdir) 0 pre evs /\ Generate r = Ok s /\ four_digits (List.length pre) ds /\
           failing (Join outdir (ds ++ str ".smt2")) s = Some (part, e) /\
           w' = w ++ map Logged log ++ evs ++ Logged (str "rule: " ++ rule_text r) ::
                  match part with Some p => [Wrote (Join outdir (ds ++ str ".smt2")) p] | None => [] end)
    end.
Proof.
  intros gp disk failing outdir names w w' err W H. unfold run in H.
  destruct (load_said gp W disk names w) as (log & Hw & L).
  pose proof (load_exact gp W disk names w) as (_ & X & _).
  destruct (load (parse_disk gp disk) names w) as [w1 r]. cbn [fst snd] in *. destruct r as [f|e|m]; [..|contradiction].
  - destruct L as (files & k & F & S & U & E & LL).
    assert (B : Forall (fun r => rule_bad r = []) (f_rules f)).
    { specialize (X f). destruct X as [X _]. specialize (X eq_refl). eapply Forall_impl; [|exact (run_rules_good gp W disk names _ X)]. cbn; tauto. }
    pose proof (gen_loop_history Join failing outdir (f_rules f) 0 w1 B) as G. rewrite H in G. destruct err as [e|].
    + right. right. destruct G as (pre & r & post & evs & ds & s & part & Er & Hi & G & D & Fl & ->).
      rewrite Er in LL. exists files, k, log, pre, r, post, evs, ds, s, part. repeat (split; [first [assumption|congruence]|]).
      rewrite Hw, <- app_assoc. reflexivity.
    + destruct G as (evs & Hi & ->). exists files, k, (f_rules f), log, evs. repeat (split; [assumption|]). rewrite Hw, <- app_assoc. reflexivity.
  - inversion H; subst. destruct L as [(before & n & post & files & e' & E & F & FL & P & _)|(files & k & before & r & post & m & n & F & S & CL & -> & _ & Im & In_ & Ne & _)].
    + left. exists before, n, post, files, log. repeat (split; [assumption|]). split; [|auto].
      intros rs Hn. apply (disk_ok gp disk n (mkFile rs)) in Hn. congruence.
    + right. left. exists files, (before ++ r :: post), r, m, n, log. repeat (split; [assumption|]). split; [apply in_elt|]. auto.
Qed.
Print Assumptions C48_history.

(** Witness: a failed write after one script. *)
Definition ex_full (p s : text) : option (option text * text) :=
  if text_eqb p (str "out/0001.smt2") then Some (Some (firstn 10 s), str "disk full") else None.
Example C48_history_example : exists s0,
  ex_run ex_full ex_names = Exit
    [ Logged (str "parsed 2 rules from a.rules"); Logged (str "parsed 2 rules from b.rules"); Logged (str "parsed 4 rules total");
      Logged (str "filter simple: 3 rules"); Logged (str "expand alternates: 4 rules");
      Logged (str "rule: (Sub8 x x) => (Xor8 x x)"); Wrote (str "out/0000.smt2") s0; Logged (str "smt2: written to out/0000.smt2");
      Logged (str "rule: (Sub16 x x) => (Xor16 x x)"); Wrote (str "out/0001.smt2") (str "(set-info ") ] (Some (str "disk full")).
Proof. eexists. vm_compute. reflexivity. Qed.

(** C53: whenever a run is killed, the output directory has, among the files of the
    run, the complete scripts of the first [n] rules and at most a beginning of the
    next one (of what a failing write leaves, if that write was failing); and each
    script whose file was reported as written is complete. *)
Theorem C53_killed :
  forall gp disk failing outdir names w evs err seen, never_nil gp ->
    run (parse_disk gp disk) Join failing outdir names w = Exit (w ++ evs) err -> killed evs seen ->
    exists complete partial, w_files (w ++ seen) = w_files w ++ complete ++ partial /\
      NoDup (map fst (complete ++ partial)) /\
      ((complete = [] /\ partial = []) \/
       exists rs n, run_rules gp disk names rs /\
         (forall p s, In (p, s) complete <->
            exists i r ds, i < n /\ nth_error rs i = Some r /\ Generate r = Ok s /\ four_digits i ds /\ p = Join outdir (ds ++ str ".smt2")) /\
         (partial = [] \/
          exists r ds s t u, nth_error rs n = Some r /\ Generate r = Ok s /\ four_digits n ds /\ partial = [(Join outdir (ds ++ str ".smt2"), t)] /\
            (s = t ++ u \/ exists e, failing (Join outdir (ds ++ str ".smt2")) s = Some (Some (t ++ u), e)))) /\
      (forall p, In (str "smt2: written to " ++ p) (w_log seen) -> exists s, In (p, s) complete).
Proof.
  intros gp disk failing outdir names w evs err seen W H K. apply (C48_history _ _ _ _ _ _ _ _ W) in H.
  assert (Z : forall log l', incl l' log -> (forall p l', incl l' log -> ~ announced p l') -> seen = map Logged l' ->
    exists complete partial, w_files (w ++ seen) = w_files w ++ complete ++ partial /\
      NoDup (map fst (complete ++ partial)) /\
      ((complete = [] /\ partial = []) \/
       exists rs n, run_rules gp disk names rs /\
         (forall p s, In (p, s) complete <->
            exists i r ds, i < n /\ nth_error rs i = Some r /\ Generate r = Ok s /\ four_digits i ds /\ p = Join outdir (ds ++ str ".smt2")) /\
         (partial = [] \/
          exists r ds s t u, nth_error rs n = Some r /\ Generate r = Ok s /\ four_digits n ds /\ partial = [(Join outdir (ds ++ str ".smt2"), t)] /\
            (s = t ++ u \/ exists e, failing (Join outdir (ds ++ str ".smt2")) s = Some (Some (t ++ u), e)))) /\
      (forall p, In (str "smt2: written to " ++ p) (w_log seen) -> exists s, In (p, s) complete)).
  { intros log l' I A ->. exists [], []. rewrite files_app, files_said. split; [reflexivity|]. split; [constructor|]. split; [auto|].
    intros p Hp. rewrite log_said in Hp. elim (A p l' I Hp). }
  (* the last part: a prefix of the rules *)
  assert (Y : forall rs n complete log partial t, run_rules gp disk names rs -> n <= List.length rs ->
    outputs Generate (Join outdir) 0 (firstn n rs) complete log ->
    (partial = [] \/ exists r ds s t u, nth_error rs n = Some r /\ Generate r = Ok s /\ four_digits n ds /\ partial = [(Join outdir (ds ++ str ".smt2"), t)] /\
            (s = t ++ u \/ exists e, failing (Join outdir (ds ++ str ".smt2")) s = Some (Some (t ++ u), e))) ->
    w_files seen = complete ++ partial -> w_log seen = t -> (forall p, announced p t -> exists s, In (p, s) complete) ->
    exists complete partial, w_files (w ++ seen) = w_files w ++ complete ++ partial /\
      NoDup (map fst (complete ++ partial)) /\
      ((complete = [] /\ partial = []) \/
       exists rs n, run_rules gp disk names rs /\
         (forall p s, In (p, s) complete <->
            exists i r ds, i < n /\ nth_error rs i = Some r /\ Generate r = Ok s /\ four_digits i ds /\ p = Join outdir (ds ++ str ".smt2")) /\
         (partial = [] \/
          exists r ds s t u, nth_error rs n = Some r /\ Generate r = Ok s /\ four_digits n ds /\ partial = [(Join outdir (ds ++ str ".smt2"), t)] /\
            (s = t ++ u \/ exists e, failing (Join outdir (ds ++ str ".smt2")) s = Some (Some (t ++ u), e)))) /\
      (forall p, In (str "smt2: written to " ++ p) (w_log seen) -> exists s, In (p, s) complete)).
  { intros rs n complete log partial t R Ln O P Ef <- A. exists complete, partial. rewrite files_app, Ef. split; [reflexivity|].
    assert (X : forall p s, In (p, s) complete <->
            exists i r ds, i < n /\ nth_error rs i = Some r /\ Generate r = Ok s /\ four_digits i ds /\ p = Join outdir (ds ++ str ".smt2")).
    { intros p s. rewrite (outputs_exact _ _ _ _ O). split; intros (i & r & ds & Y).
      - destruct Y as (N & Y). assert (i < n).
        { pose proof (proj1 (nth_error_Some (firstn n rs) i) ltac:(congruence)) as Li. rewrite firstn_length in Li. lia. }
        exists i, r, ds. split; [assumption|]. split; [|exact Y]. rewrite <- N. clear -H0. revert n H0. generalize rs. induction i as [|i IH]; intros [|x l] [|n] Hn; try lia; try reflexivity. cbn. apply IH. lia.
      - destruct Y as (Li & N & Y). exists i, r, ds. split; [|exact Y]. rewrite <- N. clear -Li. revert n Li. generalize rs. induction i as [|i IH]; intros [|x l] [|n] Hn; try lia; try reflexivity. cbn. apply IH. lia. }
    split; [|split; [|exact A]].
    - rewrite map_app. destruct P as [->|(r & ds & s & u & v & N & G & D & -> & _)]; [rewrite app_nil_r; exact (outputs_nodup _ _ _ _ _ O)|].
      cbn [map fst]. apply NoDup_Add with (a := Join outdir (ds ++ str ".smt2")) (l := map fst complete).
      + rewrite <- (app_nil_r (map fst complete)) at 1. apply Add_app.
      + split; [exact (outputs_nodup _ _ _ _ _ O)|]. intros I. apply in_map_iff in I. destruct I as ([p s'] & E & I). cbn in E. subst p.
        apply X in I. destruct I as (i & r' & ds' & Li & _ & _ & D' & E). apply (names_distinct outdir n i ds ds' D D') in E. lia.
    - right. exists rs, n. auto. }
  destruct err as [e|].
  - destruct H as [(before & n & post & files & log & E & F & Un & FL & Ew)|[(files & k & r & m & n & log & F & S & _ & _ & _ & _ & CL & Ew)|
      (files & k & log & pre & r & post & hs & ds & s & part & F & S & U & Er & LL & Hi & G & D & Fl & Ew)]]; apply app_inv_head in Ew; subst evs.
    + apply killed_said in K. destruct K as (l' & I & Es). apply (Z log l' I); [|exact Es]. intros p. apply (said_not_announced _ _ _ [] [] log FL). auto.
    + apply killed_said in K. destruct K as (l' & I & Es). apply (Z log l' I); [|exact Es]. intros p.
      pose proof CL as (l0 & _ & _ & FL & _). apply (said_not_announced _ _ _ k [] log FL). right. left. exact CL.
    + assert (NA : forall p l', incl l' log -> ~ announced p l').
      { intros p. pose proof LL as (l0 & _ & _ & _ & FL & _). eapply said_not_announced; [exact FL|right; right; exact LL]. }
      assert (R : run_rules gp disk names (pre ++ r :: post)) by (exists k; split; [exists files; auto|]; split; [exact U|congruence]).
      apply killed_app in K. destruct K as [K|(t & -> & K)].
      { apply killed_said in K. destruct K as (l' & I & Es). exact (Z log l' I NA Es). }
      assert (LA : forall u complete, (forall p, announced p u -> exists s : text, In (p, s) complete) -> forall p, announced p (log ++ u) -> exists s, In (p, s) complete).
      { intros u c A p Hp. apply in_app_iff in Hp. destruct Hp as [Hp|Hp]; [elim (NA p log (incl_refl _) Hp)|exact (A p Hp)]. }
      apply killed_app in K. destruct K as [K|(u & -> & K)].
      * destruct (history_killed _ _ _ _ Hi t K) as (n & complete & lg & partial & Ln & Ef & O & P & A).
        eapply (Y (pre ++ r :: post) n complete lg partial _ R); [rewrite app_length; lia| | | |reflexivity|].
        -- rewrite firstn_app. replace (n - List.length pre) with 0 by lia. rewrite app_nil_r. exact O.
        -- destruct P as [->|(r' & s' & ds' & x & y & N & G' & D' & Es & Ep)]; [auto|right]. exists r', ds', s', x, y.
           split; [rewrite nth_error_app1; [exact N|apply nth_error_Some; congruence]|]. auto.
        -- rewrite files_app, files_said. exact Ef.
        -- rewrite log_app, log_said. apply LA. exact A.
      * pose proof (history_outputs _ _ _ _ Hi) as O.
        assert (Q : exists partial, w_files u = partial /\ (forall p, ~ announced p (w_log u)) /\ (partial = [] \/ exists x y, partial = [(Join outdir (ds ++ str ".smt2"), x)] /\ part = Some (x ++ y))).
        { exists (w_files u). split; [reflexivity|]. apply killed_cons in K. destruct K as [->|[(v & -> & K)|(p & c & c' & E & _)]]; [split; [intros p []|auto]| |discriminate].
          destruct part as [x|].
          - apply killed_cons in K. destruct K as [->|[(v' & -> & K)|(p & c & c' & E & ->)]].
            + split; [|auto]. intros p [E|[]]. discriminate E.
            + apply killed_nil in K. subst v'. split; [intros p [E|[]]; discriminate E|]. right. exists x, []. rewrite app_nil_r. auto.
            + inversion E; subst. split; [intros q [E'|[]]; discriminate E'|]. right. exists c, c'. auto.
          - apply killed_nil in K. subst v. split; [|auto]. intros p [E|[]]. discriminate E. }
        destruct Q as (partial & Ef & Nu & P).
        eapply (Y (pre ++ r :: post) (List.length pre) (w_files hs) (w_log hs) partial _ R); [rewrite app_length; lia| | | |reflexivity|].
        -- rewrite firstn_app, firstn_all, Nat.sub_diag, app_nil_r. exact O.
        -- destruct P as [->|(x & y & -> & ->)]; [auto|right]. exists r, ds, s, x, y. split; [rewrite nth_error_app2, Nat.sub_diag by auto; reflexivity|].
           repeat (split; [assumption|]). split; [reflexivity|]. right. exists e. exact Fl.
        -- rewrite !files_app, files_said, Ef. reflexivity.
        -- rewrite !log_app, log_said. apply LA. intros p Hp. apply in_app_iff in Hp. destruct Hp as [Hp|Hp]; [|elim (Nu p Hp)].
           exact (outputs_announced _ _ _ _ _ O p Hp).
  - destruct H as (files & k & rs & log & hs & F & S & U & Er & LL & Hi & Ew). apply app_inv_head in Ew. subst evs.
    assert (NA : forall p l', incl l' log -> ~ announced p l').
    { intros p. pose proof LL as (l0 & _ & _ & _ & FL & _). eapply said_not_announced; [exact FL|right; right; exact LL]. }
    assert (R : run_rules gp disk names rs) by (exists k; split; [exists files; auto|]; auto).
    apply killed_app in K. destruct K as [K|(t & -> & K)].
    { apply killed_said in K. destruct K as (l' & I & Es). exact (Z log l' I NA Es). }
    destruct (history_killed _ _ _ _ Hi t K) as (n & complete & lg & partial & Ln & Ef & O & P & A).
    eapply (Y rs n complete lg partial _ R Ln O); [| |reflexivity|].
    + destruct P as [->|(r' & s' & ds' & x & y & N & G' & D' & Es & Ep)]; [auto|right]. exists r', ds', s', x, y. auto 10.
    + rewrite files_app, files_said. exact Ef.
    + rewrite log_app, log_said. intros p Hp. apply in_app_iff in Hp. destruct Hp as [Hp|Hp]; [elim (NA p log (incl_refl _) Hp)|exact (A p Hp)].
Qed.
Print Assumptions C53_killed.

(** An earlier attempt at the same run: other writes may have failed in it, and it ended
    by itself, with an error or not, or was killed; [seen] is what it did. *)
Definition attempt gp disk outdir names (seen : list event) : Prop :=
  exists failing w evs err, run (parse_disk gp disk) Join failing outdir names w = Exit (w ++ evs) err /\ killed evs seen.
(** Whatever earlier attempts there were, a run that then completes leaves every file
    with the contents that a single complete run leaves. *)
Theorem C53_rerun :
  forall gp disk failing outdir names w evs seens, never_nil gp ->
    run (parse_disk gp disk) Join failing outdir names w = Exit (w ++ evs) None -> Forall (attempt gp disk outdir names) seens ->
    run (parse_disk gp disk) Join failing outdir names (w ++ List.concat seens) = Exit (w ++ List.concat seens ++ evs) None /\
    forall p, contents (w_files (w ++ List.concat seens ++ evs)) p = contents (w_files (w ++ evs)) p.
Proof.
  intros gp disk failing outdir names w evs seens W H K. split.
  - rewrite run_world in H |- *. destruct (run (parse_disk gp disk) Join failing outdir names []) as [v e|]; [|discriminate]. cbn [after] in *.
    inversion H as [[E E']]. apply app_inv_head in E. subst v. rewrite <- app_assoc. reflexivity.
  - intros p. rewrite !files_app, !contents_app. destruct (contents (w_files evs) p) eqn:E; [reflexivity|].
    assert (N : contents (w_files (List.concat seens)) p = None); [|rewrite N; reflexivity].
    apply contents_none. apply contents_none in E. intros I. apply E. clear E.
    destruct (C44_output_files gp disk failing outdir names w _ W H) as (rs & written & R & Wf & _ & B).
    rewrite files_app in Wf. apply app_inv_head in Wf. rewrite Wf. clear Wf.
    assert (P : forall i r s ds, nth_error rs i = Some r -> Generate r = Ok s -> four_digits i ds -> In (Join outdir (ds ++ str ".smt2")) (map fst written)).
    { intros i r s ds Hn Hg Hd. apply in_map_iff. exists (Join outdir (ds ++ str ".smt2"), s). split; [reflexivity|]. apply B. exists i, r, ds. auto. }
    induction K as [|s l Ks K IH]; [destruct I|]. cbn [List.concat] in I. rewrite files_app, map_app in I. apply in_app_iff in I.
    destruct I as [I|I]; [|auto]. clear IH K l. destruct Ks as (failing' & w0 & evs' & err & H' & Ks).
    destruct (C53_killed gp disk failing' outdir names w0 evs' err s W H' Ks) as (complete & partial & Ef & _ & C & _).
    rewrite files_app in Ef. apply app_inv_head in Ef. rewrite Ef in I. destruct C as [[-> ->]|(rs' & n & R' & C & D)]; [destruct I|].
    assert (rs' = rs) as ->.
    { pose proof (proj1 (proj2 (load_exact gp W disk names [])) (mkFile rs)) as X. pose proof (proj1 (proj2 (load_exact gp W disk names [])) (mkFile rs')) as X'.
      cbn [f_rules] in *. apply X in R. apply X' in R'. congruence. }
    rewrite map_app in I. apply in_app_iff in I. destruct I as [I|I].
    + apply in_map_iff in I. destruct I as ([q t] & <- & I). apply C in I. destruct I as (i & r & ds & _ & Hn & Hg & Hd & ->). cbn. eapply P; eauto.
    + destruct D as [->|(r & ds & s' & t & u & Hn & Hg & Hd & -> & _)]; [destruct I|]. destruct I as [<-|[]]. cbn. eapply P; eauto.
Qed.
Print Assumptions C53_rerun.

Lemma killed_all evs : killed evs evs.
Proof. rewrite <- (app_nil_r evs) at 1. apply killed_between. Qed.
(** An attempt that met a full disk. *)
Example C53_attempt_example : exists seen s0 t,
  attempt ParseExpr ex_disk (str "out/") ex_names seen /\ w_files seen = [(str "out/0000.smt2", s0); (str "out/0001.smt2", t)] /\ t = str "(set-info ".
Proof.
  eexists _, _, _. split; [|split; [|reflexivity]].
  - eexists ex_full, [], _, _. split; [vm_compute; reflexivity|apply killed_all].
  - reflexivity.
Qed.
(** Witness: killed while writing the second script, then run again. *)
Example C53_example : exists evs seen s0 s1,
  ex_run no_failure ex_names = Exit ([] ++ evs) None /\ killed evs seen /\
  w_files seen = [(str "out/0000.smt2", s0); (str "out/0001.smt2", str "(set-info ")] /\
  contents (w_files (seen ++ evs)) (str "out/0001.smt2") = Some s1 /\ s1 <> str "(set-info ".
Proof.
  eexists _, _, _, _. split; [vm_compute; reflexivity|]. split.
  - match goal with |- killed ?e _ => change e with (firstn 9 e ++ skipn 9 e) end. cbn [firstn skipn].
    match goal with |- killed (_ ++ Wrote _ ?s :: _) _ => change s with (firstn 10 s ++ skipn 10 s) end. apply killed_writing.
  - split; [reflexivity|]. split; [vm_compute; reflexivity|]. discriminate.
Qed.
