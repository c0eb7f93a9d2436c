(** Sources one after the other. *)
From Verif Require Import Text GoAst Ast Utf8 GoExpr Peg Grammar Parse SpecPrint SpecUtf8 SpecSyntax SpecSource SpecTrees PegPoints PegSem PrintFacts
  SynLex SynWords SynExpr SynValue SynRule SynFile SynShape SynTrim ParseFacts.
From Coq Require Import NArith Arith Bool Lia.

Section Extend.
  Variable gp : text -> res gexpr.
  Hypothesis nocom : no_comment_expr gp.
  Notation S := (sem (run_action gp) the_grammar).
  Notation Call := (PRef (str "Call")).

  Lemma ws1_head u z : ws1 u -> exists c t, u ++ z = c :: t /\ (blank c \/ c = "/"%char).
  Proof. intros [W N]. destruct u as [|c u]; [congruence|]. exists c, (u ++ z). split; [reflexivity|]. apply ws_first in W. exact W. Qed.

  Lemma value_end_extend res after u z : value_end res after -> after_ok gp after -> ws1 u -> value_end res (after ++ u ++ z).
  Proof.
    intros En Ok U. destruct (ws1_head u z U) as (c0 & t0 & E0 & H0). rewrite E0.
    assert (Nx : forall P : ascii -> Prop, not_next P after -> (after = [] -> ~ P c0) -> not_next P (after ++ c0 :: t0)).
    { intros P N Z a b E. destruct after as [|d after]; cbn in E; inversion E; subst; [apply Z; reflexivity|]. eapply N. reflexivity. }
    destruct En as [A B]. split; [|intros Eh; apply Nx; [apply B; exact Eh|]; intros _ <-; destruct H0 as [[H|[H|[H|H]]]|H]; discriminate].
    intros Hx. destruct (A Hx) as [N C].
    assert (N' : not_next word_char (after ++ c0 :: t0)) by (apply Nx; [exact N|intros _; apply blank_not_word; exact H0]).
    split; [exact N'|].
    assert (Q : not_next (eq "("%char) (after ++ c0 :: t0) \/ exists t, after = str "(" ++ t).
    { destruct after as [|d t].
      - left. intros a b X <-. cbn in X. inversion X; subst. destruct H0 as [[H|[H|[H|H]]]|H]; discriminate.
      - destruct (ascii_dec "("%char d) as [<-|Nd]; [right; exists t; reflexivity|]. left. intros a b X <-. cbn in X. inversion X; subst. congruence. }
    destruct Q as [Q|[t Q]].
    { intros w a w' after' _ _ _ E. rewrite E in Q. eapply Q; reflexivity. }
    assert (F : S Call [] (res ++ after ++ c0 :: t0) Fail).
    { destruct Ok as (w & rest & E & W & R).
      assert (Ew : w = []).
      { destruct w as [|c w]; [reflexivity|]. rewrite E in Q. inversion Q; subst. apply ws_first in W. destruct W as [[H|[H|[H|H]]]|H]; discriminate. }
      subst w. cbn [app] in E. destruct R as [-> |(m & v & tl & -> & V)]; [rewrite E in Q; discriminate|].
      destruct V as [m v Em|b w o opst ops ell el trl tr w' Hb Ww Ho Fo Fe Ft W'].
      + destruct (expr_first gp m v Em) as (c & t' & -> & H). rewrite E in Q. inversion Q; subst. destruct H; discriminate.
      + destruct Hb as [-> |(c & b' & -> & L & _)]; [|rewrite E in Q; inversion Q; subst; discriminate].
        cbn [if_given app] in E.
        assert (E' : after = str "(" ++ w ++ opcode_text o ++ opst ++ ell ++ trl ++ w' ++ str ")" ++ tl) by (rewrite E; cbn [app str list_ascii_of_string]; rewrite <- !app_assoc; reflexivity).
        rewrite E'. rewrite <- !app_assoc. eapply sexpr_not_call; eauto. intros a -> -> -> -> Ha. apply (C w a w' tl Ww Ha W'). exact E'. }
    apply (expr_end_value_end gp res (after ++ c0 :: t0)); [|exact Hx]. split; [auto|].
    intros ->. destruct Hx as (c & t' & X & L & _). inversion X; subst. discriminate.
  Qed.

  Lemma no_newline_spaces t : ~ In nl t -> newlines_to_spaces t = t.
  Proof.
    unfold newlines_to_spaces. induction t as [|c t IH]; intros N; [reflexivity|]. cbn in *. destruct (ascii_dec c nl) as [->|_]; [tauto|]. f_equal. apply IH. tauto.
  Qed.

  Lemma first_newline t : In nl t -> exists p q, t = p ++ nl :: q /\ ~ In nl p.
  Proof.
    induction t as [|c t IH]; intros I; [destruct I|]. destruct (ascii_dec c nl) as [->|N]; [exists [], t; auto|].
    destruct I as [I|I]; [congruence|]. destruct (IH I) as (p & q & -> & Np). exists (c :: p), q. split; [reflexivity|]. intros [H|H]; [congruence|auto].
  Qed.
  Lemma no_skip_extend c after' b e z : c <> [] -> no_skip (c ++ b :: str "=>" ++ after') -> blank b ->
    reads gp (trim_space (newlines_to_spaces c)) e -> no_skip ((c ++ b :: str "=>" ++ after') ++ z).
  Proof.
    intros Ne N Bb (raw & G & _). intros k t' E Sk. destruct c as [|d' c]; [congruence|]. destruct Sk as [d Bd|a Na].
    { cbn in E. inversion E; subst. apply (N [d] (c ++ b :: str "=>" ++ after')); [reflexivity|constructor; exact Bd]. }
    cbn in E. inversion E as [[E1 E2]]. subst d'. clear E. destruct c as [|d' c].
    { cbn in E2. inversion E2; subst. destruct Bb as [H|[H|[H|H]]]; discriminate. }
    cbn in E2. inversion E2; subst d'. clear E2.
    destruct (in_dec ascii_dec nl (c ++ b :: str "=>" ++ after')) as [I|I].
    - destruct (first_newline _ I) as (p & q & E & Np). apply (N (str "//" ++ p ++ [nl]) q); [|constructor; exact Np].
      change ((("/" :: "/" :: c)%char ++ b :: str "=>" ++ after')) with (str "//" ++ (c ++ b :: str "=>" ++ after')). rewrite E. rewrite <- !app_assoc. reflexivity.
    - assert (Nc : ~ In nl c) by (intros H; apply I; apply in_or_app; left; exact H).
      rewrite no_newline_spaces in G by (intros [H|[H|H]]; [discriminate..|exact (Nc H)]).
      destruct (trim_comment c) as (c' & T & q & Eq). change ("/" :: "/" :: c)%char with (str "//" ++ c) in G. rewrite T in G.
      apply (nocom c' raw); [|exact G]. intros H. apply Nc. rewrite Eq. apply in_or_app. left. exact H.
  Qed.

  Lemma rule_extend after t r u z : rule_form gp after t r -> after_ok gp after -> ws1 u -> rule_form gp (after ++ u ++ z) t r.
  Proof.
    intros [m vm ct c w1 w2 bt b w3 res vr Vm C W1 W2 B W3 Vr En] Ok U. apply rule_intro; auto.
    - set (x := w1 ++ str "=>" ++ w2 ++ bt ++ w3 ++ res ++ after) in *.
      replace (w1 ++ str "=>" ++ w2 ++ bt ++ w3 ++ res ++ after ++ u ++ z) with (x ++ u ++ z) by (unfold x; rewrite <- !app_assoc; reflexivity).
      destruct C as [|w w' t0 e d after' W W' Ne N A Ex Bd R]; [constructor|]. rewrite Ex in *. eapply cond_some; eauto.
      + rewrite app_assoc. apply no_skip_extend with (e := e); [assumption..|]. apply reads_cond_iff. assumption.
      + cbn. reflexivity.
    - inversion B as [|b' d after' Ne F Ed St]; subst; [constructor|]. eapply (block_some _ b d (after' ++ u ++ z)); auto.
      change (d :: after' ++ u ++ z) with ((d :: after') ++ u ++ z). rewrite <- Ed. rewrite <- !app_assoc. reflexivity.
    - apply value_end_extend; assumption.
  Qed.

  Lemma source_extend s rs : source_form gp s rs -> rs <> [] -> forall u z rs', ws1 u -> source_form gp z rs' -> source_form gp (s ++ u ++ z) (rs ++ rs').
  Proof.
    induction 1 as [|w t w' rest r rs W W' R Sf IH]; intros Ne u z rs' U Sz; [congruence|].
    pose proof (rule_extend _ _ _ u z R (source_after gp rest rs w' W' Sf) U) as R'. rewrite <- app_assoc in R'. rewrite <- !app_assoc. cbn [app].
    destruct Sf as [|wx tx wx' restx rx rsx].
    - cbn [app] in *. rewrite app_assoc in R'. rewrite (app_assoc w'). apply source_cons; auto. apply ws_app; [exact W'|apply U].
    - apply source_cons; auto. rewrite !app_assoc. rewrite <- (app_assoc _ u). rewrite <- !app_assoc.
      specialize (IH ltac:(discriminate) u z rs' U Sz). rewrite <- !app_assoc in IH. exact IH.
  Qed.
  Lemma source_prefix s rs w : ws w -> source_form gp s rs -> rs <> [] -> source_form gp (w ++ s) rs.
  Proof. intros W [|w0 t w' rest r rs' W0 W' R Sf] Ne; [congruence|]. rewrite app_assoc. apply source_cons; auto. apply ws_app; assumption. Qed.
  Lemma source_join s rs u z rs' : source_form gp s rs -> source_form gp z rs' -> ws1 u -> rs ++ rs' <> [] -> source_form gp (s ++ u ++ z) (rs ++ rs').
  Proof.
    intros Ss Sz U Ne. destruct rs as [|r rs].
    - inversion Ss; subst. cbn [app] in *. apply source_prefix; [apply U|assumption..].
    - apply source_extend; auto. discriminate.
  Qed.
End Extend.
