(** Words, white space and opcodes. *)
From Verif Require Import Text GoAst Ast Utf8 GoExpr Peg Grammar SpecPrint SpecSyntax PegPoints PegSem SynLex.
From Coq Require Import NArith Arith Bool Lia.

Section Words.
  Variable gp : text -> res gexpr.
  Notation RUN := (run_action gp).
  Notation S := (sem RUN the_grammar).
  Notation SQ := (sem_seq RUN the_grammar).
  Notation SR := (sem_rep RUN the_grammar).

  (** * Repeated classes *)
  Definition hit (cs : list N) (rs : list (N * N)) (c : ascii) : Prop := in_class cs rs false (byte_val c) = true.
  Lemma class_rep_ok name cs rs k : forall r, ascii_class cs rs = true -> Forall (hit cs rs) k -> not_next (hit cs rs) r ->
    SR (PClass name cs rs false) (k ++ r) (map (fun c => VBytes [c]) k) r.
  Proof.
    induction k as [|c k IH]; intros r A F N; cbn [app map].
    - apply rep_nil. apply class_bad; assumption.
    - inversion F; subst. eapply rep_cons; [apply class_ok; assumption|]. apply IH; assumption.
  Qed.
  Lemma class_rep_inv name cs rs vs : forall t r, ascii_class cs rs = true -> SR (PClass name cs rs false) t vs r ->
    exists k, t = k ++ r /\ Forall (hit cs rs) k /\ not_next (hit cs rs) r /\ vs = map (fun c => VBytes [c]) k.
  Proof.
    induction vs as [|v vs IH]; intros t r A H; inversion H; subst.
    - exists []. split; [reflexivity|]. split; [constructor|]. split; [eapply class_bad_inv; eauto|reflexivity].
    - match goal with G : S _ _ _ (Good v _ _) |- _ => apply class_inv in G; [|assumption]; destruct G as (c & -> & I & -> & ->) end.
      match goal with G : SR _ _ vs _ |- _ => apply IH in G; [|assumption]; destruct G as (k & -> & F & N & ->) end.
      exists (c :: k). repeat split; auto.
  Qed.

  (** * Words *)
  Definition word_ranges : list (N * N) := [(97, 122); (65, 90); (48, 57)]%N.
  Lemma hit_word c : hit [95%N] word_ranges c <-> word_char c.
  Proof.
    unfold hit, word_char, in_class, word_ranges, in_range. cbn [existsb]. rewrite xorb_false_r, !orb_false_r.
    change (byte_val "a") with 97%N. change (byte_val "z") with 122%N. change (byte_val "A") with 65%N.
    change (byte_val "Z") with 90%N. change (byte_val "0") with 48%N. change (byte_val "9") with 57%N.
    rewrite !orb_true_iff, N.eqb_eq. change 95%N with (byte_val "_"%char). split.
    - intros [H|[H|[H|H]]]; auto. left. apply byte_val_inj. exact H.
    - intros [->|[H|[H|H]]]; auto.
  Qed.
  Lemma hit_lower c : hit [] [(97, 122)]%N c <-> lower c.
  Proof.
    unfold hit, lower, in_class, in_range. cbn [existsb orb]. rewrite xorb_false_r, orb_false_r.
    change (byte_val "a") with 97%N. change (byte_val "z") with 122%N. tauto.
  Qed.
  Lemma not_next_iff (P Q : ascii -> Prop) t : (forall c, P c <-> Q c) -> not_next P t <-> not_next Q t.
  Proof. intros H. unfold not_next. split; intros X c t' E Y; apply (X c t' E); apply H; exact Y. Qed.
  Lemma Forall_hit_word k : Forall (hit [95%N] word_ranges) k <-> Forall word_char k.
  Proof. rewrite !Forall_forall. split; intros H x I; apply hit_word; auto. Qed.

  Definition bytes_vals (k : text) : list val := map (fun c => VBytes [c]) k.
  Lemma words_rep_ok k r : Forall word_char k -> not_next word_char r -> SR g_word (k ++ r) (bytes_vals k) r.
  Proof.
    intros F N. apply class_rep_ok; [reflexivity|apply Forall_hit_word; exact F|].
    eapply not_next_iff; [apply hit_word|exact N].
  Qed.
  Lemma words_rep_inv t vs r : SR g_word t vs r ->
    exists k, t = k ++ r /\ Forall word_char k /\ not_next word_char r /\ vs = bytes_vals k.
  Proof.
    intros H. apply class_rep_inv in H; [|reflexivity]. destruct H as (k & A & B & C & D). exists k. split; [exact A|].
    split; [apply Forall_hit_word; exact B|]. split; [|exact D]. eapply not_next_iff; [|exact C]. intros c. symmetry. apply hit_word.
  Qed.
  Lemma words_ok k r en : Forall word_char k -> not_next word_char r ->
    S (PStar g_word) en (k ++ r) (Good (VSlice (bytes_vals k)) en r).
  Proof. intros. apply sem_star. apply words_rep_ok; assumption. Qed.
  Lemma words_inv t v en en' r : S (PStar g_word) en t (Good v en' r) ->
    exists k, t = k ++ r /\ Forall word_char k /\ not_next word_char r /\ en' = en.
  Proof. intros H. inversion H; subst. match goal with G : SR _ _ _ _ |- _ => apply words_rep_inv in G; destruct G as (k & A & B & C & D) end. eauto 6. Qed.
  Lemma lower_ok c r en : lower c -> S g_lower en (c :: r) (Good (VBytes [c]) en r).
  Proof. intros H. apply class_ok; [reflexivity|]. apply hit_lower. exact H. Qed.
  Lemma lower_inv t v en en' r : S g_lower en t (Good v en' r) -> exists c, t = c :: r /\ lower c /\ en' = en.
  Proof. intros H. apply class_inv in H; [|reflexivity]. destruct H as (c & -> & I & _ & ->). exists c. repeat split. apply hit_lower. exact I. Qed.
  Lemma lower_bad t en : not_next lower t -> S g_lower en t Fail.
  Proof. intros H. apply class_bad; [reflexivity|]. eapply not_next_iff; [apply hit_lower|exact H]. Qed.
  Lemma lower_word c : lower c -> word_char c.
  Proof. unfold lower, word_char. auto. Qed.
  Lemma ident_word x : ident x -> word x.
  Proof. intros (c & t & -> & L & F). split; [discriminate|]. constructor; [apply lower_word; exact L|exact F]. Qed.

  (** [ident] in front of the rest of a sequence. *)
  Lemma ident_ok x r es vals en o : ident x -> not_next word_char r ->
    (forall v1 v2, SQ es (vals ++ [v1] ++ [v2]) en r o) -> SQ (g_ident ++ es) vals en (x ++ r) o.
  Proof.
    intros (c & t & -> & L & F) N K. cbn [app g_ident]. eapply seq_cons; [apply lower_ok; exact L|].
    eapply seq_cons; [apply words_ok; assumption|]. rewrite <- app_assoc. apply K.
  Qed.
  Lemma ident_seq x r : ident x -> not_next word_char r ->
    exists v1 v2, forall es vals en o, SQ es (vals ++ [v1] ++ [v2]) en r o -> SQ (g_ident ++ es) vals en (x ++ r) o.
  Proof.
    intros (c & t & -> & L & F) N. exists (VBytes [c]), (VSlice (bytes_vals t)). intros es vals en o K.
    cbn [app g_ident]. eapply seq_cons; [apply lower_ok; exact L|].
    eapply seq_cons; [apply words_ok; assumption|]. rewrite <- app_assoc. apply K.
  Qed.
  Lemma ident_inv es vals en t v en' r : SQ (g_ident ++ es) vals en t (Good v en' r) ->
    exists x r' v1 v2, t = x ++ r' /\ ident x /\ not_next word_char r' /\ SQ es (vals ++ [v1] ++ [v2]) en r' (Good v en' r).
  Proof.
    cbn [app g_ident]. intros H. apply seq_inv in H. destruct H as (v1 & en1 & r1 & A & H).
    apply seq_inv in H. destruct H as (v2 & en2 & r2 & B & H). apply lower_inv in A. destruct A as (c & -> & L & ->).
    apply words_inv in B. destruct B as (k & -> & F & N & ->). exists (c :: k), r2, v1, v2. repeat split; auto.
    - exists c, k. auto.
    - rewrite <- app_assoc in H. exact H.
  Qed.

  (** * White space *)
  Lemma hit_blank c : hit [32; 9; 13; 10]%N [] c <-> blank c.
  Proof.
    unfold hit, blank, in_class. cbn [existsb]. rewrite xorb_false_r, !orb_false_r, !orb_true_iff, !N.eqb_eq.
    change 32%N with (byte_val sp). change 9%N with (byte_val tab). change 13%N with (byte_val cr). change 10%N with (byte_val nl).
    split; intros [H|[H|[H|H]]]; try (apply byte_val_inj in H); subst; auto.
  Qed.
  Lemma slash_not_blank : ~ blank "/"%char.
  Proof. unfold blank. intros [H|[H|[H|H]]]; discriminate. Qed.
  Lemma no_skip_char c t : ~ blank c -> c <> "/"%char -> no_skip (c :: t).
  Proof. intros B N k t' E K. destruct K; cbn in E; inversion E; subst; contradiction. Qed.
  Lemma no_skip_nil : no_skip [].
  Proof. intros k t' E K. destruct K; discriminate. Qed.

  Definition eol_lit : pexp := lit (String nl EmptyString) """\n""".
  Lemma eol_eq : g_eol = eol_lit. Proof. reflexivity. Qed.

  Lemma blank_ok c r en : blank c -> S g_skip en (c :: r) (Good (VBytes [c]) en r).
  Proof.
    intros B. apply sem_choice. apply alts_fail.
    - apply sem_sequence. apply seq_fail. apply lit_bad1. intros d t' E X. inversion E; subst. apply slash_not_blank. exact B.
    - eapply alts_good. apply class_ok; [reflexivity|]. apply hit_blank. exact B.
  Qed.
  Lemma comment_ok a r en : ~ In nl a -> exists v, S g_skip en (str "//" ++ a ++ [nl] ++ r) (Good v en r).
  Proof.
    intros N. destruct (inverted_ok gp (str "[^\n]") nl a (nl :: r)) as [vs [R _]]; [reflexivity|exact N|right; eauto|].
    eexists. apply sem_choice. eapply alts_good. apply sem_sequence.
    eapply seq_cons; [apply lit_ok|]. eapply seq_cons; [apply sem_star; exact R|].
    eapply seq_cons; [rewrite eol_eq; apply (lit_ok gp (String nl EmptyString))|]. apply seq_nil.
  Qed.
  Lemma skip_ok k r en : skip k -> exists v, S g_skip en (k ++ r) (Good v en r).
  Proof.
    intros [c B|a N]; [eexists; apply blank_ok; exact B|].
    destruct (comment_ok a r en N) as [v H]. exists v. rewrite <- !app_assoc. exact H.
  Qed.
  Lemma skip_inv t v en en' r : S g_skip en t (Good v en' r) -> exists k, t = k ++ r /\ skip k /\ en' = en.
  Proof.
    intros H. inversion H as [| |? ? ? ? A| | | | | | | | | | | | | | | | | |]; subst.
    inversion A as [|? ? ? ? ? ? ? B|? ? ? ? ? B C]; subst.
    - seqinv B. apply lit_inv in M. destruct M as [-> ->]. destruct B as (_ & -> & ->).
      inversion M0; subst. match goal with G : SR _ _ _ _ |- _ => apply (inverted_inv gp _ nl) in G; [|reflexivity]; destruct G as (a & -> & N & _) end.
      rewrite eol_eq in M1. apply lit_inv in M1. destruct M1 as [-> _].
      exists (str "//" ++ a ++ [nl]). split; [rewrite <- !app_assoc; reflexivity|]. split; [constructor; exact N|reflexivity].
    - inversion C as [|? ? ? ? ? ? ? D|? ? ? ? ? D E]; subst; [|inversion E].
      apply class_inv in D; [|reflexivity]. destruct D as (c & -> & I & -> & _). exists [c]. repeat split. constructor. apply hit_blank. exact I.
  Qed.
  Lemma skip_bad t en : no_skip t -> S g_skip en t Fail.
  Proof.
    intros N. apply sem_choice. apply alts_fail; [|apply alts_fail; [|constructor]].
    - apply sem_sequence. destruct (lit_match (runes "//") t) as [r|] eqn:E.
      + unfold runes in E. apply lit_match_some in E. subst t.
        destruct (span_spec (is nl) r) as (A & B & C).
        assert (NI : ~ In nl (fst (span (is nl) r))).
        { intros I. rewrite Forall_forall in B. specialize (B _ I). unfold is in B. destruct (ascii_dec nl nl); congruence. }
        destruct (snd (span (is nl) r)) as [|c r'] eqn:Er.
        * destruct (inverted_ok gp (str "[^\n]") nl (fst (span (is nl) r)) []) as [vs [R _]]; [reflexivity|exact NI|auto|].
          rewrite <- A in R. eapply seq_cons; [apply lit_ok|]. eapply seq_cons; [apply sem_star; exact R|].
          apply seq_fail. rewrite eol_eq. apply lit_bad1. intros ? ? X. discriminate.
        * exfalso. destruct C as [C|(c' & r'' & C & D)]; [discriminate|]. inversion C; subst c' r''. apply is_spec in D. subst c.
          apply (N (str "//" ++ fst (span (is nl) r) ++ [nl]) r'); [|constructor; exact NI].
          rewrite <- !app_assoc. rewrite A at 1. reflexivity.
      + apply seq_fail. apply sem_lit_fail. exact E.
    - apply class_bad; [reflexivity|]. intros c t' -> H. apply hit_blank in H. apply (N [c] t' eq_refl). constructor. exact H.
  Qed.
  Lemma skip_bad_inv t en : S g_skip en t Fail -> no_skip t.
  Proof. intros H k t' -> K. destruct (skip_ok k t' en K) as [v G]. apply (S_fun _ _ _ _ _ _ H) in G. discriminate. Qed.

  Lemma skip_nonempty k : skip k -> k <> [].
  Proof. intros [c B|a N]; discriminate. Qed.
  Lemma ws_rep_ok k : ws k -> forall r, no_skip r -> exists vs, SR g_skip (k ++ r) vs r /\ (vs = [] <-> k = []).
  Proof.
    induction 1 as [|k t K W IH]; intros r N.
    - exists []. split; [apply rep_nil; apply skip_bad; exact N|tauto].
    - destruct (IH r N) as [vs [R _]]. destruct (skip_ok k (t ++ r) [] K) as [v G]. exists (v :: vs).
      rewrite <- app_assoc. split; [eapply rep_cons; eauto|]. split; [discriminate|]. intros E. apply app_eq_nil in E.
      destruct (skip_nonempty k K). apply E.
  Qed.
  Lemma ws_rep_inv vs : forall t r, SR g_skip t vs r -> exists k, t = k ++ r /\ ws k /\ no_skip r /\ (vs = [] <-> k = []).
  Proof.
    induction vs as [|v vs IH]; intros t r H; inversion H; subst.
    - exists []. split; [reflexivity|]. split; [constructor|]. split; [eapply skip_bad_inv; eauto|tauto].
    - match goal with G : S _ _ _ (Good v _ _) |- _ => apply skip_inv in G; destruct G as (k & -> & K & ->) end.
      match goal with G : SR _ _ vs _ |- _ => apply IH in G; destruct G as (k' & -> & W & N & _) end.
      exists (k ++ k'). rewrite <- app_assoc. split; [reflexivity|]. split; [constructor; assumption|]. split; [exact N|].
      split; [discriminate|]. intros E. apply app_eq_nil in E. destruct (skip_nonempty k K). apply E.
  Qed.
  Lemma ws0_ok k r en : ws k -> no_skip r -> exists vs, S g_ws0 en (k ++ r) (Good (VSlice vs) en r).
  Proof. intros W N. destruct (ws_rep_ok k W r N) as [vs [R _]]. exists vs. apply sem_star. exact R. Qed.
  Lemma ws0_inv t v en en' r : S g_ws0 en t (Good v en' r) -> exists k, t = k ++ r /\ ws k /\ no_skip r /\ en' = en.
  Proof. intros H. inversion H; subst. match goal with G : SR _ _ _ _ |- _ => apply ws_rep_inv in G; destruct G as (k & A & B & C & D) end. eauto 6. Qed.
  Lemma ws1_ok k r en : ws1 k -> no_skip r -> exists v, S g_ws1 en (k ++ r) (Good v en r).
  Proof.
    intros [W Ne] N. destruct (ws_rep_ok k W r N) as [vs [R X]]. destruct vs as [|v vs]; [destruct Ne; apply X; reflexivity|].
    eexists. apply sem_plus. exact R.
  Qed.
  Lemma ws1_inv t v en en' r : S g_ws1 en t (Good v en' r) -> exists k, t = k ++ r /\ ws1 k /\ no_skip r /\ en' = en.
  Proof.
    intros H. inversion H; subst. match goal with G : SR _ _ _ _ |- _ => apply ws_rep_inv in G; destruct G as (k & A & B & C & D) end.
    exists k. repeat split; auto. intros E. apply D in E. discriminate.
  Qed.
  Lemma ws1_bad t en : no_skip t -> S g_ws1 en t Fail.
  Proof. intros N. eapply sem_plus_fail. apply rep_nil. apply skip_bad. exact N. Qed.

  Lemma ws_app a b : ws a -> ws b -> ws (a ++ b).
  Proof. intros A B. induction A as [|k t K W IH]; [exact B|]. rewrite <- app_assoc. constructor; assumption. Qed.
  Lemma ws_blank c : blank c -> ws [c].
  Proof. intros B. apply (ws_cons [c] []); [constructor; exact B|constructor]. Qed.
  (** The first character of non-empty white space. *)
  Lemma ws_first c t : ws (c :: t) -> blank c \/ c = "/"%char.
  Proof.
    intros W. inversion W as [|k t' K W' E]; subst. destruct K as [d B|a N]; cbn in E; inversion E; subst; auto.
  Qed.
  (** What may follow a name: white space or one of the given characters. *)
  Lemma ws_not_next (P : ascii -> Prop) w r : ws w -> (forall c, blank c \/ c = "/"%char -> ~ P c) -> not_next P r -> not_next P (w ++ r).
  Proof.
    intros W H N. destruct w as [|c w]; [exact N|]. intros d t' E. inversion E; subst. apply H. eapply ws_first; eauto.
  Qed.
  Lemma blank_not_word c : blank c \/ c = "/"%char -> ~ word_char c.
  Proof. intros [[-> | [-> | [-> | ->]]] | ->] [H|[H|[H|H]]]; discriminate. Qed.

  (** * Opcodes *)
  Lemma part_ok a k r en : (forall t en, RUN a t en = AOk (VOpcode t)) -> word k -> not_next word_char r ->
    S (g_OpPart a) en (k ++ r) (Good (VOpcode k) en r).
  Proof.
    intros Ra [Ne F] N. destruct k as [|c k]; [contradiction|].
    eapply sem_action; [|rewrite consumed_app; apply Ra]. apply (sem_plus _ _ g_word en _ (VBytes [c]) (bytes_vals k)).
    apply (words_rep_ok (c :: k)); assumption.
  Qed.
  Lemma part_inv a t v en en' r : (forall t en, RUN a t en = AOk (VOpcode t)) -> S (g_OpPart a) en t (Good v en' r) ->
    exists k, t = k ++ r /\ word k /\ not_next word_char r /\ v = VOpcode k /\ en' = en.
  Proof.
    intros Ra H. inversion H as [? ? ? ? ? ? ? ? A B| | | | | | | | | | | | | | | | | | | |]; subst.
    inversion A as [| | | | | | | | | | |? ? ? ? ? ? R| | | | | | | | |]; subst. apply words_rep_inv in R. destruct R as (k & -> & F & N & E).
    rewrite consumed_app, Ra in B. inversion B; subst. exists k. repeat split; auto. intros ->. discriminate.
  Qed.
  Lemma part_bad a t en : not_next word_char t -> S (g_OpPart a) en t Fail.
  Proof. intros N. apply sem_action_fail. eapply sem_plus_fail. apply (words_rep_ok [] t); [constructor|exact N]. Qed.
  Lemma act26 t en : RUN onSExpr26 t en = AOk (VOpcode t). Proof. reflexivity. Qed.
  Lemma act33 t en : RUN onSExpr33 t en = AOk (VOpcode t). Proof. reflexivity. Qed.
  Lemma act40 t en : RUN onSExpr40 t en = AOk (VOpcode t). Proof. reflexivity. Qed.

  (** The members after the first, each with its bar. *)
  Definition barred (l : list text) : text := List.concat (map (fun c => str "|" ++ c) l).
  Lemma sep_barred c l : sep_by (str "|") (c :: l) = c ++ barred l.
  Proof.
    revert c. induction l as [|d l IH]; intros c; [cbn; rewrite app_nil_r; reflexivity|].
    change (sep_by (str "|") (c :: d :: l)) with (c ++ str "|" ++ sep_by (str "|") (d :: l)). rewrite IH. reflexivity.
  Qed.
  Definition alt_item (c : text) : val := VSlice [VBytes (str "|"); VOpcode c].
  Definition g_bar : pexp := PSeq [lit "|" """|"""; g_OpPart onSExpr40].
  Lemma bar_next l r : not_next word_char r -> not_next word_char (barred l ++ r).
  Proof. destruct l; [auto|]. intros _ c t' E. inversion E; subst. intros [H|[H|[H|H]]]; discriminate. Qed.
  Lemma bars_ok l : forall r, Forall word l -> not_next word_char r -> not_next (eq "|"%char) r ->
    SR g_bar (barred l ++ r) (map alt_item l) r.
  Proof.
    induction l as [|c l IH]; intros r F N N'; cbn [map].
    - apply rep_nil. apply sem_sequence. apply seq_fail. apply lit_bad1. exact N'.
    - inversion F; subst. unfold barred. cbn [map List.concat]. rewrite <- !app_assoc.
      eapply rep_cons; [|apply IH; assumption]. apply sem_sequence.
      eapply seq_cons; [apply lit_ok|]. eapply seq_cons; [apply part_ok; [apply act40|assumption|apply bar_next; assumption]|].
      apply seq_nil.
  Qed.
  Lemma bars_inv vs : forall t r, SR g_bar t vs r -> exists l, t = barred l ++ r /\ Forall word l /\ vs = map alt_item l.
  Proof.
    induction vs as [|v vs IH]; intros t r H; inversion H; subst.
    - exists []. auto.
    - match goal with G : S _ _ _ (Good v _ _) |- _ => rename G into M end. unfold g_bar in M. apply sequence_inv in M.
      apply seq_inv in M. destruct M as (v1 & en1 & r1 & A & M). apply seq_inv in M. destruct M as (v2 & en2 & r2 & B & M).
      apply seq_end in M. destruct M as (-> & -> & ->). inversion A; subst.
      match goal with L : lit_match _ _ = Some _ |- _ => unfold runes in L; apply lit_match_some in L; subst end.
      rewrite consumed_app. apply part_inv in B; [|apply act40]. destruct B as (k & -> & W & N & -> & _).
      match goal with G : SR _ _ vs _ |- _ => apply IH in G; destruct G as (l & -> & F & ->) end.
      exists (k :: l). unfold barred. cbn [map List.concat]. rewrite <- !app_assoc. repeat split; auto.
  Qed.
  Lemma on_alt_ok l : forall acc, on_alt (map alt_item l) acc = AOk (VAlt (acc ++ l)).
  Proof.
    induction l as [|c l IH]; intros acc; cbn [map on_alt]; [rewrite app_nil_r; reflexivity|].
    cbn [alt_item elem nth_error]. rewrite IH, <- app_assoc. reflexivity.
  Qed.
  Definition alt_text (l : list text) : text := str "(" ++ sep_by (str "|") l ++ str ")".
  Lemma alt_ok l r : (2 <= List.length l)%nat -> Forall word l ->
    exists en, S g_OpAlt [] (alt_text l ++ r) (Good (VAlt l) en r).
  Proof.
    intros L F. destruct l as [|c [|d l]]; [cbn in L; lia|cbn in L; lia|]. inversion F as [|? ? Wc Fl]; subst.
    eexists. unfold alt_text. rewrite sep_barred, <- !app_assoc.
    eapply sem_action.
    - apply sem_sequence. eapply seq_cons; [apply lit_ok|].
      eapply seq_cons; [eapply sem_label; apply part_ok; [apply act33|exact Wc|apply bar_next; intros x t' E; inversion E; subst; intros [H|[H|[H|H]]]; discriminate]|].
      eapply seq_cons; [eapply sem_label; apply sem_plus; apply (bars_ok (d :: l)); [exact Fl|intros x t' E; inversion E; subst; intros [H|[H|[H|H]]]; discriminate|intros x t' E; inversion E; subst; discriminate]|].
      eapply seq_cons; [apply lit_ok|]. apply seq_nil.
    - cbn [run_action]. apply (on_alt_ok (d :: l) [c]).
  Qed.
  Lemma alt_inv t v en r : S g_OpAlt [] t (Good v en r) ->
    exists l, t = alt_text l ++ r /\ (2 <= List.length l)%nat /\ Forall word l /\ v = VAlt l.
  Proof.
    intros H. inversion H as [? ? ? ? ? ? ? ? A B| | | | | | | | | | | | | | | | | | | |]; subst. seqinv A.
    destruct A as (_ & -> & ->). apply lit_inv in M. destruct M as [-> ->].
    inversion M0; subst. match goal with G : S (g_OpPart _) _ _ _ |- _ => apply part_inv in G; [|apply act33]; destruct G as (k & -> & W & N & -> & _) end.
    inversion M1; subst. match goal with G : S (PPlus _) _ _ _ |- _ => inversion G; subst end.
    match goal with G : SR _ _ _ _ |- _ => apply bars_inv in G; destruct G as (l & -> & F & E) end.
    apply lit_inv in M2. destruct M2 as [-> ->]. rewrite E in B. cbn [run_action] in B.
    change (on_alt (map alt_item l) [k] = AOk v) in B. rewrite on_alt_ok in B. inversion B; subst.
    exists (k :: l). unfold alt_text. rewrite sep_barred, <- !app_assoc. split; [reflexivity|].
    destruct l; [discriminate|]. cbn [List.length]. split; [lia|]. split; [constructor; assumption|reflexivity].
  Qed.

  Definition part_val (p : oppart) : val := match p with PCode c => VOpcode c | PAlt l => VAlt l | PNilPart => VNil end.
  Definition g_part : pexp := PChoice [g_OpPart onSExpr26; g_OpAlt].
  Definition parts_text (ps : list oppart) : text := List.concat (map part_text ps).
  (** What may follow an opcode. *)
  Definition op_end (r : text) : Prop := not_next word_char r /\ not_next (eq "("%char) r.
  Lemma part_text_alt l : l <> [] -> part_text (PAlt l) = alt_text l.
  Proof. destruct l; [contradiction|reflexivity]. Qed.
  Lemma parts_ok ps : forall r, Forall part_wf ps -> parts_apart ps -> op_end r ->
    SR g_part (parts_text ps ++ r) (map part_val ps) r.
  Proof.
    induction ps as [|p ps IH]; intros r F Ap E; cbn [map].
    - apply rep_nil. apply sem_choice. apply alts_fail; [apply part_bad; apply E|]. apply alts_fail; [|constructor].
      apply sem_action_fail. apply sem_sequence. apply seq_fail. apply lit_bad1. apply E.
    - inversion F as [|? ? Wp Fp]; subst. unfold parts_text. cbn [map List.concat]. rewrite <- app_assoc.
      destruct p as [c|l|]; [..|contradiction].
      + assert (Ap' : parts_apart ps) by (destruct ps as [|[| |] ?]; cbn in *; tauto).
        eapply rep_cons; [|apply IH; assumption]. apply sem_choice. eapply alts_good.
        apply part_ok; [apply act26|exact Wp|]. destruct ps as [|[d|l|] ps']; [apply E|contradiction| |inversion Fp; contradiction].
        inversion Fp as [|? ? Wl _]; subst. assert (L : (2 <= List.length l)%nat) by apply Wl. unfold parts_text. cbn [map List.concat]. rewrite part_text_alt; [|destruct l; [cbn in L; lia|discriminate]].
        intros x t' X. inversion X; subst. intros [H|[H|[H|H]]]; discriminate.
      + destruct Wp as [L Wl]. eapply rep_cons; [|apply IH; [exact Fp|exact Ap|exact E]].
        rewrite part_text_alt; [|destruct l; [cbn in L; lia|discriminate]].
        destruct (alt_ok l (List.concat (map part_text ps) ++ r) L Wl) as [en G].
        apply sem_choice. apply alts_fail; [apply part_bad; intros x t' X; inversion X; subst; intros [H|[H|[H|H]]]; discriminate|].
        eapply alts_good. exact G.
  Qed.
  Lemma parts_inv vs : forall t r, SR g_part t vs r -> exists ps, t = parts_text ps ++ r /\ Forall part_wf ps /\ parts_apart ps /\
    vs = map part_val ps.
  Proof.
    induction vs as [|v vs IH]; intros t r H; inversion H; subst.
    - exists []. repeat split; auto.
    - match goal with G : SR _ _ vs _ |- _ => apply IH in G; destruct G as (ps & -> & F & Ap & ->) end.
      match goal with G : S g_part _ _ _ |- _ => inversion G as [| |? ? ? ? A| | | | | | | | | | | | | | | | | |]; subst end.
      inversion A as [|? ? ? ? ? ? ? B|? ? ? ? ? B C]; subst.
      + apply part_inv in B; [|apply act26]. destruct B as (k & -> & W & N & -> & _).
        exists (PCode k :: ps). unfold parts_text. cbn [map List.concat]. rewrite <- app_assoc. split; [reflexivity|].
        split; [constructor; assumption|]. split; [|reflexivity].
        destruct ps as [|[d|l|] ps']; try exact Ap. exfalso. inversion F as [|? ? Wdd _]; subst. destruct (Wdd : word d) as [Nd Wd].
        destruct d as [|x d]; [contradiction|]. inversion Wd; subst. eapply (N x); [reflexivity|assumption].
      + inversion C as [|? ? ? ? ? ? ? D|? ? ? ? ? D E]; subst; [|inversion E].
        apply alt_inv in D. destruct D as (l & -> & L & W & ->).
        exists (PAlt l :: ps). unfold parts_text. cbn [map List.concat]. rewrite part_text_alt, <- app_assoc; [|destruct l; [cbn in L; lia|discriminate]].
        repeat split; auto. constructor; [split; assumption|assumption].
  Qed.

  Definition op_val (o : op) : val := match o with Opcode c => VOpcode c | OpcodeParts ps => VParts ps | NilOp => VNil end.
  Definition parts_of (o : op) : list oppart := match o with Opcode c => [PCode c] | OpcodeParts ps => ps | NilOp => [] end.
  Lemma opcode_parts_text o : opcode_text o = parts_text (parts_of o).
  Proof. destruct o; cbn; rewrite ?app_nil_r; reflexivity. Qed.
  Lemma on_op_ok ps : forall acc, Forall part_wf ps -> on_op (map part_val ps) acc =
    match acc ++ ps with [PCode c] => AOk (VOpcode c) | l => AOk (VParts l) end.
  Proof.
    induction ps as [|p ps IH]; intros acc F; cbn [map on_op].
    - rewrite app_nil_r. destruct acc as [|[] []]; reflexivity.
    - inversion F; subst. destruct p; [..|contradiction]; cbn [part_val]; rewrite IH by assumption; rewrite <- app_assoc; reflexivity.
  Qed.
  Lemma op_ok o r : op_wf o -> op_end r -> exists en, S g_Op [] (opcode_text o ++ r) (Good (op_val o) en r).
  Proof.
    intros W E. rewrite opcode_parts_text.
    assert (P : parts_of o <> [] /\ Forall part_wf (parts_of o) /\ parts_apart (parts_of o)).
    { destruct o as [c|ps|]; [|cbn in *; tauto|contradiction]. cbn. split; [discriminate|]. split; [constructor; [exact W|constructor]|exact I]. }
    destruct P as (Ne & F & Ap). pose proof (parts_ok _ r F Ap E) as R.
    destruct (parts_of o) as [|p ps] eqn:Ep; [contradiction|]. cbn [map] in R.
    eexists. eapply sem_action; [eapply sem_label; apply sem_plus; exact R|]. cbn [run_action].
    change (on_op (map part_val (p :: ps)) [] = AOk (op_val o)). rewrite (on_op_ok (p :: ps) [] F). cbn [app].
    destruct o as [c|qs|]; [|cbn in Ep; subst qs|contradiction].
    - cbn in Ep. inversion Ep; subst. reflexivity.
    - cbn [op_wf] in W. destruct W as (_ & _ & _ & N). destruct p as [c| |]; try reflexivity. destruct ps; [destruct (N c eq_refl)|reflexivity].
  Qed.
  Lemma op_inv t v en r : S g_Op [] t (Good v en r) -> exists o, t = opcode_text o ++ r /\ op_wf o /\ v = op_val o.
  Proof.
    intros H. inversion H as [? ? ? ? ? ? ? ? A B| | | | | | | | | | | | | | | | | | | |]; subst. inversion A; subst.
    match goal with G : S (PPlus _) _ _ _ |- _ => inversion G; subst end.
    match goal with G : SR _ _ _ _ |- _ => apply parts_inv in G; destruct G as (ps & -> & F & Ap & E) end.
    rewrite E in B. cbn [run_action] in B. change (on_op (map part_val ps) [] = AOk v) in B. rewrite on_op_ok in B by exact F. cbn [app] in B.
    assert (Ne : ps <> []) by (intros ->; discriminate).
    assert (C : (exists c, ps = [PCode c]) \/ forall c, ps <> [PCode c]).
    { destruct ps as [|[c| |] [|]]; try (right; intros; discriminate). left; eauto. }
    destruct C as [[c ->]|C].
    - inversion B; subst. exists (Opcode c). split; [cbn; rewrite app_nil_r; reflexivity|]. split; [inversion F; assumption|reflexivity].
    - exists (OpcodeParts ps). split; [reflexivity|]. split; [cbn; auto|].
      destruct ps as [|[c| |] [|]]; inversion B; try reflexivity. destruct (C c eq_refl).
  Qed.
End Words.
