(** Rules in sequence: what a successful parse reads. *)
From Verif Require Import Text GoAst Ast Utf8 GoExpr Peg Grammar Parse SpecPrint SpecUtf8 SpecSyntax PegPoints PegSem SynLex SynWords SynExpr SynValue SynRule ParseFacts.
From Verif Require Import SynTrim.
From Coq Require Import NArith Arith Bool Lia.

Section Files.
  Variable gp : text -> res gexpr.
  Notation RUN := (run_action gp).
  Notation S := (sem RUN the_grammar).
  Notation SQ := (sem_seq RUN the_grammar).
  Notation SR := (sem_rep RUN the_grammar).
  Notation Expr := (PRef (str "Expr")).
  Notation Call := (PRef (str "Call")).
  Notation Value := (PRef (str "Value")).
  Notation Rule := (PRef (str "Rule")).

  (** ** A variable before "(" is not always a call *)
  Lemma wordchar_no_skip c t : word_char c -> no_skip (c :: t).
  Proof.
    intros H. apply no_skip_char.
    - intros B. apply (blank_not_word c); [auto|exact H].
    - intros ->. apply (blank_not_word "/"%char); [auto|exact H].
  Qed.
  Lemma word_arg d r : word d -> not_next word_char r -> (ident d -> S Call [] (d ++ r) Fail) ->
    S Expr [] (d ++ r) Fail \/ (exists v, S Expr [] (d ++ r) (Good v [] r) /\ (ident d \/ d = str "_")) \/
    (exists v c y, d ++ r = str "_" ++ c :: y /\ S Expr [] (d ++ r) (Good v [] (c :: y)) /\ word_char c).
  Proof.
    intros [Ne F] N C. destruct d as [|c d]; [contradiction|]. inversion F as [|? ? Wc Fd]; subst.
    destruct (in_range "a" "z" c) eqn:L.
    - assert (Hd : ident (c :: d)) by (exists c, d; repeat split; assumption).
      right. left. eexists. split; [apply expr_var_ok; [exact Hd|exact N|apply C; exact Hd]|auto].
    - assert (NL : not_next lower ((c :: d) ++ r)) by (intros x y E H; inversion E; subst; unfold lower in H; congruence).
      destruct (ascii_dec "_"%char c) as [<-|U].
      + destruct d as [|e d]; [destruct r as [|e r]|].
        * right. left. eexists. split; [apply (expr_hole_ok gp [] []); nextchar|auto].
        * right. left. eexists. split; [apply (expr_hole_ok gp (e :: r) [])|auto].
          intros x y E <-. apply (N _ _ E). left. reflexivity.
        * destruct (ascii_dec "_"%char e) as [<-|U].
          -- left. eapply sem_ref_fail; [reflexivity|]. apply sem_choice. apply alts_fail; [apply call_bad_first; exact NL|].
             apply alts_fail; [apply var_bad; exact NL|]. apply alts_fail; [|constructor].
             apply sem_action_fail. apply sem_sequence. eapply seq_cons; [apply (lit_ok gp "_" _ _ (str "_" ++ d ++ r))|].
             apply seq_fail. eapply sem_not. apply (lit_ok gp "_" _ _ (d ++ r)).
          -- right. right. inversion Fd; subst. eexists _, e, (d ++ r). split; [reflexivity|]. split; [|assumption].
             apply (expr_hole_ok gp (e :: d ++ r) []). intros x y E <-. inversion E; subst. contradiction.
      + left. apply expr_bad; [exact NL|]. intros x y E <-. inversion E; subst. contradiction.
  Qed.
  Lemma call_no f w d r w' x : ident f -> ws w -> word d -> not_next word_char r -> (ident d -> S Call [] (d ++ r) Fail) ->
    r = w' ++ x -> ws w' -> no_skip x -> (not_next (eq ","%char) x /\ not_next (eq ")"%char) x) \/ ~ (ident d \/ d = str "_") ->
    S Call [] (f ++ str "(" ++ w ++ d ++ r) Fail.
  Proof.
    intros Hf W Wd N C E W' Nx Q.
    assert (Nd : no_skip (d ++ r)).
    { destruct Wd as [Ne F]. destruct d; [contradiction|]. inversion F; subst. apply wordchar_no_skip. assumption. }
    destruct (word_arg d r Wd N C) as [H|[(v & G & H)|(v & c & y & Ey & G & H)]].
    - apply call_bad_noarg; assumption.
    - destruct Q as [[Q1 Q2]|Q]; [|contradiction]. subst r. apply (call_bad_arg gp f w _ d w' x); eauto.
    - apply (call_bad_arg gp f w _ (str "_") [] (c :: y)); auto.
      + exists v. exact G.
      + constructor.
      + apply wordchar_no_skip. exact H.
      + intros a b X <-. inversion X; subst. revert H. notword.
      + intros a b X <-. inversion X; subst. revert H. notword.
  Qed.

  Lemma tail_cases opst ops ell el trl tr w r : operands_form gp opst ops -> flag_form (str "...") ell el -> flag_form (str "___") trl tr -> ws w ->
    (opst = [] /\ ell = [] /\ trl = []) \/
    exists w1 x, opst ++ ell ++ trl ++ w ++ str ")" ++ r = w1 ++ x /\ ws w1 /\ no_skip x /\ not_next (eq ","%char) x /\ not_next (eq ")"%char) x.
  Proof.
    intros Fo Fe Ft W. destruct Fo as [|w1 t x rest xs [W1 _] Fx _].
    - destruct Fe as [|w1 [W1 _]].
      + destruct Ft as [|w1 [W1 _]]; [auto|]. right. exists w1, (str "___" ++ w ++ str ")" ++ r). rewrite <- !app_assoc.
        split; [reflexivity|]. split; [exact W1|]. split; [apply no_skip_char; [intros [H|[H|[H|H]]]; discriminate|discriminate]|split; nextchar].
      + right. exists w1, (str "..." ++ trl ++ w ++ str ")" ++ r). rewrite <- !app_assoc.
        split; [reflexivity|]. split; [exact W1|]. split; [apply no_skip_char; [intros [H|[H|[H|H]]]; discriminate|discriminate]|split; nextchar].
    - right. eexists w1, (t ++ _). rewrite <- !app_assoc. split; [reflexivity|]. split; [exact W1|]. split; [eapply operand_no_skip; eauto|].
      assert (Q : exists c t', t = c :: t' /\ c <> ","%char /\ c <> ")"%char).
      { destruct Fx as [t0 _ _|t0 e _ _ _|t0 e _ _ _|t0 v V]; [eexists _, _; split; [reflexivity|split; discriminate]..|].
        destruct (value_first gp t0 v V) as (c & t' & -> & H). exists c, t'. split; [reflexivity|].
        split; intros ->; destruct H as [H|[H|H]]; discriminate. }
      destruct Q as (c & t' & -> & C & P). split; intros a b X <-; inversion X; subst; congruence.
  Qed.

  (** How an opcode text starts. *)
  Lemma opcode_start o : op_wf o ->
    (exists c, o = Opcode c /\ word c) \/
    (exists l rest, opcode_text o = alt_text l ++ rest /\ (2 <= List.length l)%nat /\ Forall word l) \/
    (exists c l rest, opcode_text o = c ++ alt_text l ++ rest /\ word c /\ (2 <= List.length l)%nat /\ Forall word l).
  Proof.
    destruct o as [c|ps|]; cbn [op_wf]; [intros Wc; left; exists c; auto| |contradiction]. intros (Ne & F & Ap & N). right.
    assert (A : forall l, (2 <= List.length l)%nat -> part_text (PAlt l) = alt_text l) by (intros l L; apply part_text_alt; destruct l; [cbn in L; lia|discriminate]).
    destruct ps as [|p ps]; [contradiction|]. inversion F as [|? ? Wp Fp]; subst. destruct p as [c|l|]; [| |contradiction].
    - right. destruct ps as [|[d|l|] ps]; [destruct (N c eq_refl)|contradiction| |inversion Fp; contradiction].
      inversion Fp as [|? ? Wp2 _]; subst. destruct Wp2 as [L Wl]. exists c, l, (List.concat (map part_text ps)).
      cbn [opcode_text map List.concat]. rewrite (A l L). rewrite <- ?app_assoc. auto.
    - left. destruct Wp as [L Wl]. exists l, (List.concat (map part_text ps)). cbn [opcode_text map List.concat]. rewrite (A l L). auto.
  Qed.
  Lemma alt_start l : (2 <= List.length l)%nat -> Forall word l -> exists d y, alt_text l = str "(" ++ d ++ str "|" ++ y /\ word d.
  Proof.
    intros L F. destruct l as [|d [|e l]]; [cbn in L; lia..|]. inversion F; subst. exists d, (sep_by (str "|") (e :: l) ++ str ")"). split; [|assumption].
    unfold alt_text. change (sep_by (str "|") (d :: e :: l)) with (d ++ str "|" ++ sep_by (str "|") (e :: l)). rewrite <- !app_assoc. reflexivity.
  Qed.
  Lemma bar_facts y : no_skip (str "|" ++ y) /\ not_next (eq ","%char) (str "|" ++ y) /\ not_next (eq ")"%char) (str "|" ++ y) /\ op_end (str "|" ++ y).
  Proof. split; [apply no_skip_char; [intros [H|[H|[H|H]]]; discriminate|discriminate]|]. repeat split; nextchar. Qed.

  Lemma sexpr_not_call x w o opst ops ell el trl tr w' r :
    ident x -> ws w -> op_wf o -> operands_form gp opst ops -> flag_form (str "...") ell el -> flag_form (str "___") trl tr -> ws w' ->
    (forall c, o = Opcode c -> opst = [] -> ell = [] -> trl = [] -> ident c \/ c = str "_" -> False) ->
    S Call [] (x ++ str "(" ++ w ++ opcode_text o ++ opst ++ ell ++ trl ++ w' ++ str ")" ++ r) Fail.
  Proof.
    intros Hx W Ho Fo Fe Ft W' NC.
    assert (G : goes_on (opst ++ ell ++ trl ++ w' ++ str ")" ++ r)).
    { eapply operands_goes_on; eauto. eapply flags_goes_on; eauto. eapply flags_goes_on; eauto. apply close_goes_on. exact W'. }
    destruct (goes_on_end _ G) as [O _].
    destruct (opcode_start o Ho) as [(c & -> & Wc)|[(l & rest & E & L & Wl)|(c & l & rest & E & Wc & L & Wl)]].
    - cbn [opcode_text] in *. destruct (tail_cases opst ops ell el trl tr w' r Fo Fe Ft W') as [(-> & -> & ->)|(w1 & y & E & W1 & Ny & C & P)].
      + apply (call_no x w c _ w' (str ")" ++ r)); auto.
        * apply O.
        * intros Hc. apply call_bad_paren; assumption.
        * apply close_no_skip.
        * right. intros Hc. apply (NC c); auto.
      + apply (call_no x w c _ w1 y); auto.
        * apply O.
        * intros Hc. apply call_bad_paren; assumption.
    - rewrite E. destruct (alt_start l L Wl) as (d & y & -> & Wd). rewrite <- !app_assoc. apply call_bad_noarg; auto.
      + apply first_no_skip. auto.
      + apply expr_bad; nextchar.
    - rewrite E. destruct (alt_start l L Wl) as (d & y & -> & Wd). rewrite <- !app_assoc.
      eapply (call_no x w c _ []); auto.
      + nextchar.
      + intros Hc. destruct (bar_facts (y ++ rest ++ opst ++ ell ++ trl ++ w' ++ str ")" ++ r)) as (B1 & B2 & B3 & B4).
        apply (call_no c [] d _ [] (str "|" ++ y ++ rest ++ opst ++ ell ++ trl ++ w' ++ str ")" ++ r)); auto.
        * constructor.
        * apply B4.
        * intros Hd. apply call_bad_paren; assumption.
        * constructor.
      + reflexivity.
      + constructor.
      + apply first_no_skip. auto.
      + left. split; nextchar.
  Qed.

  (** ** Rules *)
  (** What comes after a rule: white space, then the end or a value. *)
  Definition after_ok (after : text) : Prop := exists w rest, after = w ++ rest /\ ws w /\
    (rest = [] \/ exists m v tl, rest = m ++ tl /\ value_form gp m v).
  Lemma result_ends res after : value_end res after -> after_ok after -> ends gp res after.
  Proof.
    intros [A B] (w & rest & E & W & R).
    assert (FC : forall c t, after = c :: t -> blank c \/ c = "/"%char \/ lower c \/ c = "_"%char \/ c = "("%char).
    { intros c t Ec. rewrite E in Ec. destruct w as [|d w].
      - destruct R as [-> |(m & v & tl & -> & V)]; [discriminate|]. destruct (value_first gp m v V) as (d & t' & -> & H). inversion Ec; subst. tauto.
      - inversion Ec; subst. apply ws_first in W. tauto. }
    split; [split; [|exact B]|].
    - intros Hx. destruct (A Hx) as [N C]. split; [exact N|].
      assert (Q : not_next (eq "("%char) after \/ exists t, after = str "(" ++ t).
      { destruct after as [|c t]; [left; intros ? ? X; discriminate|]. destruct (ascii_dec "("%char c) as [<-|U]; [right; exists t; reflexivity|].
        left. intros a b X <-. inversion X; subst. contradiction. }
      destruct Q as [Q|[t Q]]; [apply call_bad_paren; [exact Hx|split; assumption]|].
      assert (Ew : w = []).
      { destruct w as [|c w]; [reflexivity|]. rewrite E in Q. inversion Q; subst. apply ws_first in W. destruct W as [[H|[H|[H|H]]]|H]; discriminate. }
      subst w. cbn [app] in E. destruct R as [-> |(m & v & tl & -> & V)]; [rewrite E in Q; discriminate|].
      destruct V as [m v Em|b w o opst ops ell el trl tr w' Hb Ww Ho Fo Fe Ft W'].
      + destruct (expr_first gp m v Em) as (c & t' & -> & H). rewrite E in Q. inversion Q; subst. destruct H; discriminate.
      + destruct Hb as [-> |(c & b' & -> & L & _)]; [|rewrite E in Q; inversion Q; subst; discriminate].
        cbn [if_given app] in E. change (str "(" ++ (w ++ opcode_text o ++ opst ++ ell ++ trl ++ w' ++ str ")") ++ tl) with (("("%char :: w ++ opcode_text o ++ opst ++ ell ++ trl ++ w' ++ str ")") ++ tl) in *.
        assert (E' : after = str "(" ++ w ++ opcode_text o ++ opst ++ ell ++ trl ++ w' ++ str ")" ++ tl) by (rewrite E; cbn [app str list_ascii_of_string]; rewrite <- !app_assoc; reflexivity).
        rewrite E' in *. eapply sexpr_not_call; eauto. intros a -> -> -> -> Ha. apply (C w a w' tl Ww Ha W'). reflexivity.
    - intros _ c t Ec <-. destruct (FC _ _ Ec) as [[H|[H|[H|H]]]|[H|[H|[H|H]]]]; discriminate.
  Qed.

  Lemma match_ends m ct c w1 rest : cond_form gp (w1 ++ str "=>" ++ rest) ct c -> ws w1 -> ends gp m (ct ++ w1 ++ str "=>" ++ rest).
  Proof.
    intros C W1.
    assert (Q : forall w x, ws w -> not_next word_char x -> not_next (eq "("%char) x -> not_next (eq ":"%char) x -> ends gp m (w ++ x)).
    { intros w x W A B D. apply ends_of; [split|]; apply ws_not_next; auto; [apply blank_not_word|..];
      intros d [[-> | [-> | [-> | ->]]] | ->]; discriminate. }
    destruct C as [|w w' t e b after' [W _] _ _ _ _ _ _ _]; [apply (Q w1)|rewrite <- !app_assoc; apply (Q w)]; auto; nextchar.
  Qed.

  Lemma on_rule_ok vm c cv b bv vr : cond_val c cv -> block_val b bv -> on_rule (VValue vm) cv bv (VValue vr) = AOk (VRule (mkRule vm c b vr)).
  Proof.
    intros C B. unfold on_rule. destruct c as [e|]; cbn [cond_val] in C.
    - destruct C as (x & y & z & ->). cbn [elem nth_error]. destruct B as [[-> ->]|[_ ->]]; reflexivity.
    - subst cv. destruct B as [[-> ->]|[_ ->]]; reflexivity.
  Qed.

  Lemma rule_ok after t r : rule_form gp after t r -> after_ok after -> S Rule [] (t ++ after) (Good (VRule r) [] after).
  Proof.
    intros [m vm ct c w1 w2 bt b w3 res vr Vm C W1 W2 B W3 Vr En] Ok.
    set (r5 := res ++ after). set (r4 := w3 ++ r5) in *. set (r3 := bt ++ r4). set (r2 := w2 ++ r3).
    assert (N5 : no_skip r5) by (eapply value_no_skip; eauto).
    assert (F5 : exists x y, r5 = x :: y /\ (lower x \/ x = "_"%char \/ x = "("%char)).
    { destruct (value_first gp res vr Vr) as (x & y & E & H). exists x, (y ++ after). unfold r5. rewrite E. auto. }
    assert (At : not_next (eq "@"%char) r4).
    { apply ws_not_next; [exact W3| |].
      - intros d [[-> | [-> | [-> | ->]]] | ->]; discriminate.
      - destruct F5 as (x & y & -> & H). intros p q E <-. inversion E; subst. destruct H as [H|[H|H]]; discriminate. }
    replace ((m ++ ct ++ w1 ++ str "=>" ++ w2 ++ bt ++ w3 ++ res) ++ after) with (m ++ ct ++ w1 ++ str "=>" ++ r2)
      by (unfold r2, r3, r4, r5; rewrite <- !app_assoc; reflexivity).
    destruct (cond_ok gp w1 r2 ct c C W1) as (cv & Cv & Gc).
    pose proof (proj1 (values_complete gp) m vm Vm (ct ++ w1 ++ str "=>" ++ r2) [] (match_ends m ct c w1 r2 C W1)) as Gm.
    pose proof (proj1 (values_complete gp) res vr Vr after [] (result_ends res after En Ok)) as Gr.
    (* the white space around the block *)
    assert (Blk : exists u1 u2 wv1 wv2 bv, block_val b bv /\ ws u1 /\ r2 = u1 ++ u2 /\ no_skip u2 /\
       (forall en, S g_ws0 en r2 (Good wv1 en u2)) /\ (exists u3, S (POpt g_Block) [] u2 (Good bv [] u3) /\ forall en, S g_ws0 en u3 (Good wv2 en r5))).
    { destruct (block_ok gp r4 bt b B At) as (bv & Bv & Gb). inversion B as [|b' d after' Ne F Ed St]; subst.
      - destruct (ws0_ok gp (w2 ++ w3) r5 [] (ws_app _ _ W2 W3) N5) as [wv1 G1]. destruct (ws0_ok gp [] r5 [] ws_nil N5) as [wv2 G2].
        assert (At5 : not_next (eq "@"%char) r5).
        { destruct F5 as (x & y & -> & H). intros p q E <-. inversion E; subst. destruct H as [H|[H|H]]; discriminate. }
        exists (w2 ++ w3), r5, (VSlice wv1), (VSlice wv2), VNil. split; [left; auto|]. split; [apply ws_app; assumption|].
        split; [unfold r2, r3, r4; rewrite <- app_assoc; reflexivity|]. split; [exact N5|]. split.
        + intros en. unfold r2, r3, r4. cbn [app]. rewrite app_assoc. inversion G1; subst. apply sem_star. assumption.
        + exists r5. split; [|intros en; inversion G2; subst; apply sem_star; assumption].
          apply sem_opt_fail. apply sem_action_fail. apply sem_sequence. apply seq_fail. apply lit_bad1. exact At5.
      - assert (N3 : no_skip r3) by (unfold r3; rewrite <- app_assoc; apply no_skip_char; [intros [H|[H|[H|H]]]; discriminate|discriminate]).
        destruct (ws0_ok gp w2 r3 [] W2 N3) as [wv1 G1]. destruct (ws0_ok gp w3 r5 [] W3 N5) as [wv2 G2].
        exists w2, r3, (VSlice wv1), (VSlice wv2), bv. split; [exact Bv|]. split; [exact W2|]. split; [reflexivity|]. split; [exact N3|]. split.
        + intros en. inversion G1; subst. apply sem_star. assumption.
        + exists r4. split; [exact Gb|]. intros en. inversion G2; subst. apply sem_star. assumption. }
    destruct Blk as (u1 & u2 & wv1 & wv2 & bv & Bv & _ & _ & _ & G1 & u3 & Gb & G2).
    destruct (ws0_ok gp w1 (str "=>" ++ r2) [] W1 (arrow_no_skip r2)) as [wv0 G0].
    eapply sem_ref; [reflexivity|]. eapply sem_action.
    - apply sem_sequence. eapply seq_cons; [eapply sem_label; exact Gm|]. eapply seq_cons; [eapply sem_label; exact Gc|].
      eapply seq_cons; [inversion G0; subst; apply sem_star; eassumption|]. eapply seq_cons; [apply (lit_ok gp "=>" _ _ r2)|].
      eapply seq_cons; [apply G1|]. eapply seq_cons; [eapply sem_label; exact Gb|]. eapply seq_cons; [apply G2|].
      eapply seq_cons; [eapply sem_label; exact Gr|]. apply seq_nil.
    - cbn [run_action]. apply on_rule_ok; assumption.
  Qed.
  Lemma rule_inv t v r : S Rule [] t (Good v [] r) -> exists k u, t = k ++ r /\ rule_form gp r k u /\ v = VRule u.
  Proof.
    intros H. inversion H as [| | | | | | | | | | | | |? ? ? ? ? ? ? Gr B| | | | | | |]; subst. cbn in Gr. inversion Gr; subst b. clear Gr.
    inversion B as [? ? ? ? ? ? ? ? A R| | | | | | | | | | | | | | | | | | | |]; subst. apply sequence_inv in A.
    apply seq_inv in A. destruct A as (v1 & en1 & r1 & M1 & M). apply seq_inv in M. destruct M as (v2 & en2 & r2 & M2 & M).
    apply seq_inv in M. destruct M as (v3 & en3 & r3 & M3 & M). apply seq_inv in M. destruct M as (v4 & en4 & r4 & M4 & M).
    apply seq_inv in M. destruct M as (v5 & en5 & r5 & M5 & M). apply seq_inv in M. destruct M as (v6 & en6 & r6 & M6 & M).
    apply seq_inv in M. destruct M as (v7 & en7 & r7 & M7 & M). apply seq_inv in M. destruct M as (v8 & en8 & r8 & M8 & M).
    apply seq_end in M. destruct M as (_ & -> & ->).
    inversion M1 as [| | |? ? ? ? ? ? ? N1| | | | | | | | | | | | | | | | |]; subst.
    inversion M2 as [| | |? ? ? ? ? ? ? N2| | | | | | | | | | | | | | | | |]; subst.
    apply ws0_inv in M3. destruct M3 as (w1 & -> & W1 & _ & ->). apply lit_inv in M4. destruct M4 as [-> ->].
    apply ws0_inv in M5. destruct M5 as (w2 & -> & W2 & _ & ->).
    inversion M6 as [| | |? ? ? ? ? ? ? N6| | | | | | | | | | | | | | | | |]; subst.
    apply ws0_inv in M7. destruct M7 as (w3 & -> & W3 & _ & ->).
    inversion M8 as [| | |? ? ? ? ? ? ? N8| | | | | | | | | | | | | | | | |]; subst.
    apply (values_sound gp _ _ _ _ _ _ (Nat.lt_succ_diag_r _)) in N8. destruct N8 as (res & vr & -> & Vr & -> & _ & Er).
    apply block_inv in N6; [|destruct (value_first gp res vr Vr) as (? & ? & -> & _); destruct w3; discriminate].
    destruct N6 as (bt & b & -> & Fb & Bv & _).
    eapply cond_inv in N2; [|reflexivity|exact W1]. destruct N2 as (ct & c & -> & Fc & Cv & _).
    apply (values_sound gp _ _ _ _ _ _ (Nat.lt_succ_diag_r _)) in N1. destruct N1 as (m & vm & -> & Vm & -> & _ & _).
    cbn [run_action] in R. change (on_rule (VValue vm) v2 v6 (VValue vr) = AOk v) in R. rewrite (on_rule_ok vm c v2 b v6 vr Cv Bv) in R. inversion R; subst.
    exists (m ++ ct ++ w1 ++ str "=>" ++ w2 ++ bt ++ w3 ++ res), (mkRule vm c b vr). split; [rewrite <- !app_assoc; reflexivity|].
    split; [|reflexivity]. econstructor; eauto. apply (expr_end_value_end gp). exact Er.
  Qed.

  (** ** Files *)
  Definition g_item : pexp := PSeq [g_ws0; Rule; g_ws0].
  Definition rule_item (r : rule) (v : val) : Prop := exists a b, v = VSlice [a; VRule r; b].
  Lemma rule_first after t r : rule_form gp after t r -> exists m v tl, t = m ++ tl /\ value_form gp m v.
  Proof. intros [m vm ct c w1 w2 bt b w3 res vr Vm _ _ _ _ _ _ _]. eauto. Qed.
  Lemma source_after rest rs w : ws w -> source_form gp rest rs -> after_ok (w ++ rest).
  Proof.
    intros W [|w1 t w' rest' r rs' W1 W' R _].
    - exists w, []. auto.
    - destruct (rule_first _ _ _ R) as (m & v & tl & -> & V). exists (w ++ w1), ((m ++ tl) ++ w' ++ rest'). rewrite <- !app_assoc. split; [reflexivity|].
      split; [apply ws_app; assumption|]. right. eauto.
  Qed.
  Lemma value_fails_nil : S Value [] [] Fail.
  Proof.
    eapply sem_ref_fail; [reflexivity|]. apply sem_choice. apply alts_fail; [apply sexpr_fail_first; intros ? ? X; discriminate|].
    apply alts_fail; [apply expr_bad; intros ? ? X; discriminate|constructor].
  Qed.
  Lemma files_ok data rs : source_form gp data rs -> exists w0 d, data = w0 ++ d /\ ws w0 /\ no_skip d /\ (d = [] -> w0 = []) /\
    forall p, ws p -> (d = [] -> p = []) -> exists vs, Forall2 rule_item rs vs /\ SR g_item (p ++ d) vs [].
  Proof.
    induction 1 as [|w t w' rest r rs W W' R Sf (w0 & d & -> & W0 & Nd & _ & K)].
    - exists [], []. split; [reflexivity|]. split; [constructor|]. split; [apply no_skip_nil|]. split; [auto|].
      intros p _ Hp. rewrite Hp by reflexivity. exists []. split; [constructor|]. apply rep_nil. apply sem_sequence.
      destruct (ws0_ok gp [] [] [] ws_nil no_skip_nil) as [v G]. eapply seq_cons; [exact G|]. apply seq_fail.
      eapply sem_ref_fail; [reflexivity|]. apply sem_action_fail. apply sem_sequence. apply seq_fail. apply sem_label_fail. apply value_fails_nil.
    - destruct (rule_first _ _ _ R) as (m & v & tl & Et & V).
      assert (Nt : forall x, no_skip (t ++ x)) by (intros x; rewrite Et, <- app_assoc; eapply value_no_skip; eauto).
      exists w, (t ++ w' ++ w0 ++ d). split; [reflexivity|]. split; [exact W|]. split; [apply Nt|].
      assert (Nn : forall x, t ++ x <> []) by (intros x; rewrite Et; destruct (value_first gp m v V) as (? & ? & -> & _); discriminate).
      split; [intros E; destruct (Nn _ E)|]. intros p Wp _.
      destruct (K [] ws_nil ltac:(auto)) as (vs & F & Rep). cbn [app] in Rep.
      destruct (ws0_ok gp p (t ++ w' ++ w0 ++ d) [] Wp (Nt _)) as [v1 G1].
      destruct (ws0_ok gp (w' ++ w0) d [] (ws_app _ _ W' W0) Nd) as [v2 G2]. rewrite <- app_assoc in G2.
      eexists (_ :: vs). split; [constructor; [do 2 eexists; reflexivity|exact F]|]. eapply rep_cons; [|exact Rep].
      apply sem_sequence. eapply seq_cons; [exact G1|]. eapply seq_cons; [apply rule_ok; [exact R|]|].
      + eapply source_after; eauto.
      + eapply seq_cons; [exact G2|]. apply seq_nil.
  Qed.
  Lemma files_inv vs : forall data, SR g_item data vs [] -> exists rs, source_form gp data rs /\ Forall2 rule_item rs vs.
  Proof.
    induction vs as [|v vs IH]; intros data H; inversion H; subst.
    - exists []. split; constructor.
    - match goal with G : S g_item _ _ _ |- _ => rename G into M end. apply sequence_inv in M.
      apply seq_inv in M. destruct M as (v1 & en1 & r1 & M1 & M). apply seq_inv in M. destruct M as (v2 & en2 & r2 & M2 & M).
      apply seq_inv in M. destruct M as (v3 & en3 & r3 & M3 & M). apply seq_end in M. destruct M as (-> & -> & ->).
      apply ws0_inv in M1. destruct M1 as (w & -> & W & _ & ->).
      assert (en2 = []) as -> by (inversion M2; reflexivity).
      apply rule_inv in M2. destruct M2 as (k & u & -> & R & ->). apply ws0_inv in M3. destruct M3 as (w' & -> & W' & _ & ->).
      match goal with G : SR _ _ vs _ |- _ => apply IH in G; destruct G as (rs & Sf & F) end.
      exists (u :: rs). split; [constructor; assumption|]. constructor; [do 2 eexists; reflexivity|exact F].
  Qed.
  Lemma on_file_ok rs vs : Forall2 rule_item rs vs -> forall acc, on_file vs acc = AOk (VFile {| f_rules := acc ++ rs |}).
  Proof.
    induction 1 as [|r v rs vs (a & b & ->) F IH]; intros acc; cbn [on_file]; [rewrite app_nil_r; reflexivity|].
    cbn [elem nth_error]. rewrite IH, <- app_assoc. reflexivity.
  Qed.

  Theorem parse_source fn data f : Parse gp fn data = Ok f <-> utf8 data /\ source_form gp data (f_rules f).
  Proof.
    rewrite parse_ok. apply and_iff_compat_l. split.
    - intros [en H]. inversion H as [? ? ? ? ? ? ? ? A R| | | | | | | | | | | | | | | | | | | |]; subst. apply sequence_inv in A.
      apply seq_inv in A. destruct A as (v1 & en1 & r1 & M1 & M). apply seq_inv in M. destruct M as (v2 & en2 & r2 & M2 & M).
      apply seq_end in M. destruct M as (_ & -> & <-). inversion M1 as [| | |? ? ? ? ? ? ? N1| | | | | | | | | | | | | | | | |]; subst.
      inversion M2; subst. inversion N1; subst.
      match goal with G : SR _ _ _ _ |- _ => apply files_inv in G; destruct G as (rs & Sf & F) end.
      cbn [run_action] in R. change (on_file vs [] = AOk (VFile f)) in R. rewrite (on_file_ok rs vs F) in R. inversion R; subst. exact Sf.
    - intros Sf. destruct (files_ok data _ Sf) as (w0 & d & -> & W0 & _ & Hd & K). destruct (K w0 W0 Hd) as (vs & F & Rep).
      eexists. eapply sem_action.
      + apply sem_sequence. eapply seq_cons; [eapply sem_label; apply sem_star; exact Rep|].
        eapply seq_cons; [apply sem_not_fail; apply sem_any_fail|]. apply seq_nil.
      + cbn [run_action]. change (on_file vs [] = AOk (VFile f)). rewrite (on_file_ok _ vs F). destruct f; reflexivity.
  Qed.
End Files.
