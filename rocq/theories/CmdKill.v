(** Facts about the order of a run's actions and about killed runs. *)
From Verif Require Import Text GoAst Ast Walk Expand Printer Parse Smt Cmd Path SpecTree TreeFacts SpecExpand ExpandFacts
  SpecPrint PrintFacts SpecSmt SmtGen SpecUtf8 SpecSyntax SpecCmd SpecErr SpecRun SpecKill SynFile CmdFacts CmdRun CmdParse.
From Coq Require Import Arith Lia.
From Verif Require Import Cmd.

(** * The generation loop *)
Lemma gen_loop_history join wf outdir rs : forall i w, Forall (fun r => rule_bad r = []) rs ->
  match gen_loop join wf outdir i rs w with
  | Exit w' None => exists evs, history Generate (join outdir) i rs evs /\ w' = w ++ evs
  | Exit w' (Some e) => exists pre r post evs ds s part,
      rs = pre ++ r :: post /\ history Generate (join outdir) i pre evs /\
      Generate r = Ok s /\ four_digits (i + List.length pre) ds /\
      wf (join outdir (ds ++ str ".smt2")) s = Some (part, e) /\
      w' = w ++ evs ++ Logged (str "rule: " ++ rule_text r) ::
             match part with Some p => [Wrote (join outdir (ds ++ str ".smt2")) p] | None => [] end
  | Crash _ _ => False
  end.
Proof.
  induction rs as [|r rs IH]; intros i w Hb; cbn [gen_loop].
  - exists []. rewrite app_nil_r. split; [constructor|reflexivity].
  - inversion Hb; subst. rewrite Bytes_eq. cbn [node_bad node_text]. rewrite H1.
    destruct (Generate r) as [s|e|m] eqn:G; [| |elim (generate_no_panic r m G)].
    + pose proof (dec4_four i) as D.
      destruct (wf (join outdir (dec4 i ++ str ".smt2")) s) as [[part e]|] eqn:F.
      * assert (X : forall w', w' = w ++ [] ++ Logged (str "rule: " ++ rule_text r) ::
             match part with Some p => [Wrote (join outdir (dec4 i ++ str ".smt2")) p] | None => [] end ->
            exists pre r0 post evs ds s part, r :: rs = pre ++ r0 :: post /\ history Generate (join outdir) i pre evs /\
              Generate r0 = Ok s /\ four_digits (i + List.length pre) ds /\
              wf (join outdir (ds ++ str ".smt2")) s = Some (part, e) /\
              w' = w ++ evs ++ Logged (str "rule: " ++ rule_text r0) ::
                match part with Some p => [Wrote (join outdir (ds ++ str ".smt2")) p] | None => [] end).
        { intros w' E. exists [], r, rs, [], (dec4 i), s, part. cbn [app List.length]. rewrite Nat.add_0_r.
          split; [reflexivity|]. split; [constructor|]. auto. }
        destruct part as [p|]; apply X; unfold write_file, logf; rewrite <- ?app_assoc; reflexivity.
      * match goal with |- context[gen_loop _ _ _ _ _ ?w1] => specialize (IH (S i) w1 H2) end.
        destruct (gen_loop _ _ _ _ _ _) as [w' [e|]|]; [..|contradiction].
        { destruct IH as (pre & r0 & post & evs & ds & s' & part & -> & O & G' & D' & F' & ->).
          eexists (r :: pre), r0, post, (_ :: _ :: _ :: evs), ds, s', part. cbn [List.length]. rewrite <- plus_n_Sm.
          split; [reflexivity|]. split; [apply hist_script; eauto|]. repeat (split; [assumption|]).
          unfold logf, write_file. rewrite <- !app_assoc. reflexivity. }
        { destruct IH as (evs & O & ->). eexists (_ :: _ :: _ :: evs). split; [apply hist_script; eauto|].
          unfold logf, write_file. rewrite <- !app_assoc. reflexivity. }
    + match goal with |- context[gen_loop _ _ _ _ _ ?w1] => specialize (IH (S i) w1 H2) end.
      destruct (gen_loop _ _ _ _ _ _) as [w' [e'|]|]; [..|contradiction].
      * destruct IH as (pre & r0 & post & evs & ds & s' & part & -> & O & G' & D' & F' & ->).
        eexists (r :: pre), r0, post, (_ :: _ :: evs), ds, s', part. cbn [List.length]. rewrite <- plus_n_Sm.
        split; [reflexivity|]. split; [eapply hist_none; eauto|]. repeat (split; [assumption|]).
        unfold logf. rewrite <- !app_assoc. reflexivity.
      * destruct IH as (evs & O & ->). eexists (_ :: _ :: evs). split; [eapply hist_none; eauto|].
        unfold logf. rewrite <- !app_assoc. reflexivity.
Qed.

(** * Loading *)
Section Good.
  Variable gp : text -> res gexpr.
  Hypothesis whole : never_nil gp.
  Variable disk : text -> on_disk.
  Let pf := parse_disk gp disk.

  Lemma parse_all_said ns : forall w, exists l, fst (parse_all pf ns w) = w ++ map Logged l /\
    match snd (parse_all pf ns w) with
    | Ok rs => exists files, Forall2 (holds gp disk) ns files /\ rs = List.concat files /\ file_log ns files l
    | Err e => exists before n after files e', ns = before ++ n :: after /\ Forall2 (holds gp disk) before files /\ file_log before files l /\
        pf n = Err e' /\ e = str "parse: " ++ e'
    | Panic _ => False
    end.
  Proof.
    induction ns as [|n ns IH]; intros w; cbn [parse_all].
    - exists []. rewrite app_nil_r. split; [reflexivity|]. exists []. repeat split; constructor.
    - destruct (pf n) as [f|e|m] eqn:E; [| |elim (disk_no_panic gp disk n m E)].
      + set (w1 := logf _ w). destruct (IH w1) as (l & Hw & H). destruct (parse_all pf ns w1) as [w2 r]. cbn [fst snd] in *.
        assert (Hn : holds gp disk n (f_rules f)) by (apply disk_ok; exact E).
        exists ((str "parsed " ++ dec (List.length (f_rules f)) ++ str " rules from " ++ n) :: l).
        split; [rewrite Hw; unfold w1, logf; rewrite <- app_assoc; reflexivity|].
        destruct r as [rs|e|m]; cbn [bind]; [..|exact H].
        * destruct H as (files & F & -> & L). exists (f_rules f :: files). split; [constructor; assumption|]. split; [reflexivity|].
          constructor; [apply dec_decimal|exact L].
        * destruct H as (before & n' & after & files & e' & -> & F & L & P & ->). exists (n :: before), n', after, (f_rules f :: files), e'.
          split; [reflexivity|]. split; [constructor; assumption|]. split; [constructor; [apply dec_decimal|exact L]|]. auto.
      + exists []. rewrite app_nil_r. split; [reflexivity|]. exists [], n, ns, [], e. repeat split; auto; constructor.
  Qed.

  Lemma files_fun ns a : Forall2 (holds gp disk) ns a -> forall b, Forall2 (holds gp disk) ns b -> a = b.
  Proof.
    induction 1 as [|n x ns a H F IH]; intros b Fb; inversion Fb; subst; [reflexivity|]. f_equal; [eapply holds_fun; eassumption|auto].
  Qed.

  Lemma load_said ns w : exists l, fst (load pf ns w) = w ++ map Logged l /\
    match snd (load pf ns w) with
    | Ok f => exists files k, Forall2 (holds gp disk) ns files /\ sifted simple_rule (List.concat files) k /\
        Forall (fun r => uniform (rule_groups r)) k /\ f_rules f = flat_map instances k /\ load_log ns files k (f_rules f) l
    | Err e =>
        (exists before n after files e', ns = before ++ n :: after /\ Forall2 (holds gp disk) before files /\ file_log before files l /\
           pf n = Err e' /\ e = str "parse: " ++ e') \/
        (exists files k before r after m n, Forall2 (holds gp disk) ns files /\ sifted simple_rule (List.concat files) k /\
           clash_log ns files k l /\ k = before ++ r :: after /\ Forall (fun r => uniform (rule_groups r)) before /\
           In m (rule_groups r) /\ In n (rule_groups r) /\ m <> n /\ e = clash m n)
    | Panic _ => False
    end.
  Proof.
    destruct (load_spec pf (disk_no_panic gp disk) (disk_good gp whole disk) ns w) as [_ L].
    destruct (parse_all_said ns w) as (l & Hw & P). unfold load in L |- *.
    destruct (parse_all pf ns w) as [w1 r]. cbn [fst snd] in *. destruct r as [rs|e|m]; [|exists l; cbn [fst snd]; auto|contradiction].
    destruct P as (files & F & -> & FL).
    assert (Hp : Forall proper_rule (List.concat files)).
    { clear -F whole. induction F; [constructor|]. cbn [List.concat]. apply Forall_app. split; [|assumption].
      assert (parse_disk gp disk x = Ok (mkFile y)) by (apply disk_ok; assumption). apply (disk_good gp whole) in H0. eapply Forall_impl; [|exact H0]. intros r [A _]. exact A. }
    assert (FF : forall k', simple_of gp disk ns k' -> sifted simple_rule (List.concat files) k').
    { intros k' (fs & F' & S'). rewrite (files_fun ns files F fs F'). exact S'. }
    destruct (filter_sifted _ Hp) as (k & Fk & S). rewrite Fk in *.
    destruct (ExpandAlternates {| f_rules := k |}) as [[f [e|]]|e|m] eqn:X; cbn [fst snd] in *; [| | |contradiction].
    - eexists (l ++ [_; _]). split; [rewrite Hw; unfold logf; rewrite map_app, <- !app_assoc; reflexivity|]. right.
      destruct L as [(pre & n & post & e' & -> & _ & E & _)|(k' & pre & r & post & m & n & Lk & Ek & U)].
      { exfalso. apply Forall2_app_inv_l in F. destruct F as (a & b & _ & F & _). inversion F; subst.
        match goal with X : holds _ _ n ?y |- _ => assert (pf n = Ok (mkFile y)) by (apply disk_ok; exact X) end. congruence. }
      apply loaded_simple in Lk. apply FF in Lk. assert (k' = k) as -> by (eapply sifted_fun; eauto).
      exists files, k, pre, r, post, m, n. split; [exact F|]. split; [exact S|]. split; [|auto].
      exists l, (dec (List.length (List.concat files))), (dec (List.length k)). repeat (split; [first [exact FL|apply dec_decimal]|]). reflexivity.
    - eexists (l ++ [_; _; _]). split; [rewrite Hw; unfold logf; rewrite map_app, <- !app_assoc; reflexivity|].
      destruct L as (k' & Lk & U & E). apply loaded_simple in Lk. apply FF in Lk. assert (k' = k) as -> by (eapply sifted_fun; eauto).
      exists files, k. repeat (split; [assumption|]).
      exists l, (dec (List.length (List.concat files))), (dec (List.length k)), (dec (List.length (f_rules f))).
      repeat (split; [first [exact FL|apply dec_decimal]|]). reflexivity.
    - exfalso. unfold ExpandAlternates in X. destruct (expandrules _); discriminate.
  Qed.
End Good.

(** * A run does the same whatever was done before *)
Lemma parse_all_world pf ns : forall w, parse_all pf ns w = (w ++ fst (parse_all pf ns []), snd (parse_all pf ns [])).
Proof.
  induction ns as [|n ns IH]; intros w; cbn [parse_all].
  - cbn. rewrite app_nil_r. reflexivity.
  - destruct (pf n) as [f|e|m]; [|cbn; rewrite app_nil_r; reflexivity..].
    rewrite (IH (logf _ w)), (IH (logf _ [])). unfold logf. cbn [fst snd app]. rewrite <- app_assoc. reflexivity.
Qed.
Lemma load_world pf ns w : load pf ns w = (w ++ fst (load pf ns []), snd (load pf ns [])).
Proof.
  unfold load. rewrite (parse_all_world pf ns w). destruct (parse_all pf ns []) as [w1 r]. cbn [fst snd].
  destruct r as [rs|e|m]; try reflexivity. destruct (filter_simple rs) as [s|e|m]; try reflexivity.
  - destruct (ExpandAlternates _) as [[f [e|]]|e|m]; cbn [fst snd]; unfold logf; rewrite <- ?app_assoc; reflexivity.
  - cbn [fst snd]. unfold logf. rewrite <- app_assoc. reflexivity.
  - cbn [fst snd]. unfold logf. rewrite <- app_assoc. reflexivity.
Qed.
Definition after (w : world) (o : outcome) : outcome :=
  match o with Exit w' e => Exit (w ++ w') e | Crash w' m => Crash (w ++ w') m end.
Lemma gen_loop_world join wf outdir rs : forall i w w0, gen_loop join wf outdir i rs (w0 ++ w) = after w0 (gen_loop join wf outdir i rs w).
Proof.
  induction rs as [|r rs IH]; intros i w w0; cbn [gen_loop]; [reflexivity|].
  destruct (Bytes (NRule r)) as [b|e|m]; try reflexivity. unfold logf, write_file. rewrite <- (app_assoc w0).
  destruct (Generate r) as [s|e|m]; try reflexivity; [|rewrite <- (app_assoc w0); apply IH].
  destruct (wf _ s) as [[[p|] e]|]; cbn [after]; rewrite <- ?(app_assoc w0); try reflexivity. apply IH.
Qed.
Lemma run_world pf join wf outdir ns w : run pf join wf outdir ns w = after w (run pf join wf outdir ns []).
Proof.
  unfold run. rewrite (load_world pf ns w). destruct (load pf ns []) as [w1 r]. cbn [fst snd].
  destruct r as [f|e|m]; try reflexivity. apply gen_loop_world.
Qed.

(** * Killed runs *)
Lemma killed_cases evs seen : killed evs seen ->
  (exists b, evs = seen ++ b) \/ (exists a p c c' b, evs = a ++ Wrote p (c ++ c') :: b /\ seen = a ++ [Wrote p c]).
Proof. intros []; eauto 10. Qed.
Lemma killed_nil seen : killed [] seen -> seen = [].
Proof.
  intros H. apply killed_cases in H. destruct H as [(b & E)|(a & p & c & c' & b & E & _)].
  - symmetry in E. apply app_eq_nil in E. apply E.
  - destruct a; discriminate.
Qed.
Lemma killed_cons e evs seen : killed (e :: evs) seen ->
  seen = [] \/ (exists t, seen = e :: t /\ killed evs t) \/ (exists p c c', e = Wrote p (c ++ c') /\ seen = [Wrote p c]).
Proof.
  intros H. apply killed_cases in H. destruct H as [(b & E)|(a & p & c & c' & b & E & ->)].
  - destruct seen as [|x t]; [auto|]. inversion E; subst. right. left. exists t. split; [reflexivity|constructor].
  - destruct a as [|x a]; inversion E; subst.
    + right. right. exists p, c, c'. auto.
    + right. left. exists (a ++ [Wrote p c]). split; [reflexivity|constructor].
Qed.
Lemma files_app a b : w_files (a ++ b) = w_files a ++ w_files b.
Proof. apply flat_map_app. Qed.
Lemma log_app a b : w_log (a ++ b) = w_log a ++ w_log b.
Proof. apply flat_map_app. Qed.
Lemma files_said l : w_files (map Logged l) = [].
Proof. induction l; [reflexivity|exact IHl]. Qed.
Lemma log_said l : w_log (map Logged l) = l.
Proof. induction l; [reflexivity|]. cbn. f_equal. exact IHl. Qed.
Lemma killed_app a b seen : killed (a ++ b) seen -> killed a seen \/ exists t, seen = a ++ t /\ killed b t.
Proof.
  revert seen. induction a as [|e a IH]; intros seen H; cbn [app] in *; [right; exists seen; auto|].
  apply killed_cons in H. destruct H as [->|[(t & -> & H)|(p & c & c' & -> & ->)]].
  - left. apply (killed_between []).
  - apply IH in H. destruct H as [H|(u & -> & H)]; [left|right; eauto].
    destruct H; [apply (killed_between (e :: a))|apply (killed_writing (e :: a))].
  - left. apply (killed_writing []).
Qed.
Lemma killed_said l seen : killed (map Logged l) seen -> exists l', incl l' l /\ seen = map Logged l'.
Proof.
  revert seen. induction l as [|m l IH]; intros seen H; cbn [map] in H.
  - apply killed_nil in H. exists []. split; [intros x []|exact H].
  - apply killed_cons in H. destruct H as [->|[(t & -> & H)|(p & c & c' & E & _)]]; [exists []; split; [intros x []|reflexivity]| |discriminate].
    apply IH in H. destruct H as (l' & I & ->). exists (m :: l'). split; [|reflexivity]. intros x [->|Hx]; [left; reflexivity|right; auto].
Qed.

Definition announced (p : text) (log : list text) : Prop := In (str "smt2: written to " ++ p) log.
(** A beginning of the script of rule number [n]. *)
Definition half (outdir : text) (i n : nat) (rs : list rule) (partial : list (text * text)) : Prop :=
  exists r s ds t u, nth_error rs n = Some r /\ Generate r = Ok s /\ four_digits (i + n) ds /\ s = t ++ u /\
    partial = [(Join outdir (ds ++ str ".smt2"), t)].
Lemma history_killed outdir i rs evs : history Generate (Join outdir) i rs evs -> forall seen, killed evs seen ->
  exists n complete log partial, n <= List.length rs /\ w_files seen = complete ++ partial /\
    outputs Generate (Join outdir) i (firstn n rs) complete log /\ (partial = [] \/ half outdir i n rs partial) /\
    forall p, announced p (w_log seen) -> exists s, In (p, s) complete.
Proof.
  induction 1 as [i|i r rs ds s evs G D O IH|i r rs e evs G O IH]; intros seen K.
  - apply killed_nil in K. subst. exists 0, [], [], []. repeat split; auto; try constructor. intros p [].
  - assert (Z : forall seen, w_files seen = [] -> (forall p, ~ announced p (w_log seen)) ->
       exists n complete log partial, n <= List.length (r :: rs) /\ w_files seen = complete ++ partial /\
         outputs Generate (Join outdir) i (firstn n (r :: rs)) complete log /\ (partial = [] \/ half outdir i n (r :: rs) partial) /\
         forall p, announced p (w_log seen) -> exists s, In (p, s) complete).
    { intros sn E N. exists 0, [], [], []. rewrite E. repeat split; auto; [cbn; lia|constructor|]. intros p A. elim (N p A). }
    assert (NR : forall p, ~ announced p [str "rule: " ++ rule_text r]) by (intros p [E|[]]; discriminate E).
    apply killed_cons in K. destruct K as [->|[(t & -> & K)|(p & c & c' & E & _)]]; [| |discriminate]. { apply Z; [reflexivity|intros p []]. }
    apply killed_cons in K. destruct K as [->|[(u & -> & K)|(p & c & c' & E & ->)]].
    + apply Z; [reflexivity|exact NR].
    + apply killed_cons in K. destruct K as [->|[(v & -> & K)|(p & c & c' & E & _)]]; [| |discriminate].
      * exists 1, [(Join outdir (ds ++ str ".smt2"), s)]. eexists _, []. cbn [w_files flat_map app List.length firstn]. split; [lia|]. split; [reflexivity|].
        split; [apply out_script; [exact G|exact D|constructor]|]. split; [auto|]. intros p A. elim (NR p A).
      * destruct (IH v K) as (n & complete & log & partial & Ln & E & Out & P & A).
        exists (S n), ((Join outdir (ds ++ str ".smt2"), s) :: complete). eexists _, partial. cbn [w_files flat_map app List.length firstn]. split; [lia|].
        split; [change (flat_map _ v) with (w_files v); rewrite E; reflexivity|]. split; [apply out_script; [exact G|exact D|exact Out]|]. split.
        { destruct P as [->|P]; [auto|right]. destruct P as (r' & s' & ds' & t & u & N & G' & D' & X). exists r', s', ds', t, u. rewrite <- plus_n_Sm. auto. }
        { intros p H. cbn [w_log flat_map app] in H. destruct H as [H|[H|H]]; [discriminate H| |].
          - apply (app_inv_head (str "smt2: written to ")) in H. subst p. exists s. left. reflexivity.
          - destruct (A p H) as [s' I]. exists s'. right. exact I. }
    + inversion E; subst. exists 0, [], []. eexists [_]. cbn [w_files flat_map app]. split; [cbn; lia|]. split; [reflexivity|]. split; [constructor|].
      split; [right; exists r, (c ++ c'), ds, c, c'; rewrite Nat.add_0_r; auto 10|]. intros p A. elim (NR p A).
  - assert (Z : forall seen, w_files seen = [] -> (forall p, ~ announced p (w_log seen)) ->
       exists n complete log partial, n <= List.length (r :: rs) /\ w_files seen = complete ++ partial /\
         outputs Generate (Join outdir) i (firstn n (r :: rs)) complete log /\ (partial = [] \/ half outdir i n (r :: rs) partial) /\
         forall p, announced p (w_log seen) -> exists s, In (p, s) complete).
    { intros sn E N. exists 0, [], [], []. rewrite E. repeat split; auto; [cbn; lia|constructor|]. intros p A. elim (N p A). }
    apply killed_cons in K. destruct K as [->|[(t & -> & K)|(p & c & c' & E & _)]]; [| |discriminate]. { apply Z; [reflexivity|intros p []]. }
    apply killed_cons in K. destruct K as [->|[(v & -> & K)|(p & c & c' & E & _)]]; [| |discriminate].
    + apply Z; [reflexivity|]. intros p [E|[]]; discriminate E.
    + destruct (IH v K) as (n & complete & log & partial & Ln & E & Out & P & A).
      exists (S n), complete. eexists _, partial. cbn [w_files flat_map app List.length firstn]. split; [lia|]. split; [exact E|].
      split; [eapply out_none; [exact G|exact Out]|]. split.
      { destruct P as [->|P]; [auto|right]. destruct P as (r' & s' & ds' & t & u & N & G' & D' & X). exists r', s', ds', t, u. rewrite <- plus_n_Sm. auto. }
      { intros p H. cbn [w_log flat_map app] in H. destruct H as [H|[H|H]]; [discriminate H..|exact (A p H)]. }
Qed.

Lemma history_outputs outdir i rs evs : history Generate (Join outdir) i rs evs -> outputs Generate (Join outdir) i rs (w_files evs) (w_log evs).
Proof. induction 1; cbn [w_files w_log flat_map app]; econstructor; eassumption. Qed.

Lemma outputs_announced outdir i rs l log : outputs Generate (Join outdir) i rs l log -> forall p, announced p log -> exists s, In (p, s) l.
Proof.
  induction 1 as [|i r rs ds s l log G D _ IH|i r rs e l log G _ IH]; intros p A; [destruct A|..]; destruct A as [A|[A|A]]; try discriminate A.
  - apply (app_inv_head (str "smt2: written to ")) in A. subst p. exists s. left. reflexivity.
  - destruct (IH p A) as [s' I]. exists s'. right. exact I.
  - exact (IH p A).
Qed.

Lemma said_not_announced names files l k rs log : file_log names files l ->
  (log = l \/ clash_log names files k log \/ load_log names files k rs log) -> forall p l', incl l' log -> ~ announced p l'.
Proof.
  assert (X : forall names files l, file_log names files l -> forall p, ~ announced p l).
  { intros ns fs x F p. induction F as [|n r d ns fs lg D F IH]; [intros []|]. intros [E|I]; [discriminate E|exact (IH I)]. }
  intros F [->|[(l0 & dt & dk & F0 & _ & _ & ->)|(l0 & dt & dk & dr & F0 & _ & _ & _ & ->)]] p l' I A; apply I in A.
  - exact (X _ _ _ F p A).
  - apply in_app_iff in A. destruct A as [A|[A|[A|[]]]]; [exact (X _ _ _ F0 p A)|discriminate A..].
  - apply in_app_iff in A. destruct A as [A|[A|[A|[A|[]]]]]; [exact (X _ _ _ F0 p A)|discriminate A..].
Qed.

(** * Contents *)
Lemma contents_from l p : forall now, fold_left (fun now w => if text_eqb (fst w) p then Some (snd w) else now) l now =
  match contents l p with Some c => Some c | None => now end.
Proof.
  unfold contents. induction l as [|[q c] l IH]; intros now; [reflexivity|]. cbn [fold_left fst snd].
  rewrite IH, (IH (if text_eqb q p then Some c else None)). destruct (fold_left _ l None); [reflexivity|]. destruct (text_eqb q p); reflexivity.
Qed.
Lemma contents_app a b p : contents (a ++ b) p = match contents b p with Some c => Some c | None => contents a p end.
Proof. unfold contents at 1. rewrite fold_left_app, contents_from. reflexivity. Qed.
Lemma contents_none l p : contents l p = None <-> ~ In p (map fst l).
Proof.
  induction l as [|[q c] l IH] using rev_ind; [cbn; tauto|]. rewrite contents_app, map_app, in_app_iff. cbn.
  destruct (text_eqb_spec q p) as [->|N].
  - split; [discriminate|]. intros H. elim H. auto.
  - rewrite IH. split; intros H; [intros [A|[A|[]]]|]; tauto.
Qed.
Lemma contents_nodup l p c : NoDup (map fst l) -> In (p, c) l -> contents l p = Some c.
Proof.
  induction l as [|[q x] l IH] using rev_ind; [intros _ []|]. rewrite map_app, contents_app. cbn. intros N I.
  apply NoDup_remove in N. rewrite app_nil_r in N. destruct N as [N Nq]. apply in_app_iff in I. destruct I as [I|[E|[]]].
  - destruct (text_eqb_spec q p) as [->|Ne]; [|apply IH; assumption]. exfalso. apply Nq. apply in_map_iff. exists (p, c). auto.
  - inversion E; subst. destruct (text_eqb_spec p p) as [_|Ne]; [reflexivity|contradiction].
Qed.
Lemma killed_paths evs seen : killed evs seen -> incl (map fst (w_files seen)) (map fst (w_files evs)).
Proof.
  intros [a b|a p c c' b]; rewrite !files_app, !map_app; intros x; rewrite !in_app_iff; cbn; tauto.
Qed.
