(** Where the reported mistake is (C51). *)
From Verif Require Import Text GoAst Ast Utf8 GoExpr Peg Grammar Parse SpecUtf8 SpecCmd SpecErr PegPoints ParseFacts ErrFacts PegLocal GoParser.
From Coq Require Import NArith Arith Bool Lia.
Open Scope nat_scope.

Lemma grammar_tame n b : the_grammar n = Some b -> tame the_grammar b = true.
Proof. apply (by_rules (fun _ => tame the_grammar)). vm_compute. reflexivity. Qed.

(** Numbers end at the first character that is not a digit. *)
Lemma digits_end a b x y c : Forall digit a -> Forall digit b -> ~ digit c -> a ++ c :: x = b ++ c :: y -> a = b /\ x = y.
Proof.
  intros A. revert b. induction A as [|d a D A IH]; intros b B C E.
  - destruct B as [|d b D B]; cbn in E; inversion E; subst; [auto|contradiction].
  - destruct B as [|d' b D' B]; cbn in E; inversion E; subst; [contradiction|]. destruct (IH b B C H1) as [-> ->]. auto.
Qed.

Section Local.
  Variable gp : text -> res gexpr.
  Notation PE := (parse_expr (run_action gp) the_grammar).

  Lemma start_tagged data : Forall tagged (errs (start data)).
  Proof.
    unfold start, read. destruct (_ && _); cbn; [|constructor]. constructor; [|constructor]. right. reflexivity.
  Qed.
  Lemma start_fail data : fail_pos (start data) = mkPos 1 1 0 /\ fail_expected (start data) = [] /\ fail_invert (start data) = false.
  Proof. unfold start. destruct (read_fpos None (init_state data)) as (A & B & C). rewrite A, B, C. auto. Qed.
  Lemma start_Rs data data' k : firstn (N.to_nat k + 8) data = firstn (N.to_nat k + 8) data' -> Rs data data' (start data) (start data').
  Proof.
    intros E. split; [apply init_inv|]. split; [apply init_inv|].
    destruct (start_fail data) as (A & B & C), (start_fail data') as (A' & B' & C'). rewrite A, B, C, A', B', C'.
    assert (D : decode_rune data = decode_rune data') by (apply decode_local; eapply firstn_weaken; [|exact E]; lia).
    unfold start, read. change (read_pt (pt (init_state data))) with (pts data 0). change (read_pt (pt (init_state data'))) with (pts data' 0).
    unfold pts, read_pt, origin. cbn [w rest skipn]. rewrite <- D. destruct (decode_rune data) as [c n]. cbn [rn w]. destruct (_ && _); cbn; auto 8.
  Qed.

  (** The text of an error that names its rule, or of an encoding error, is not "no match found". *)
  Lemma tagged_text e l c k more dl dc dk extra : tagged e -> decimal l dl -> decimal c dc -> decimal k dk ->
    plain e ++ extra <> dl ++ str ":" ++ dc ++ str " (" ++ dk ++ str "): no match found" ++ more.
  Proof.
    intros T [Dl _] [Dc _] [Dk _] E. unfold plain, render_error, render_pos in E. cbn [app] in E. rewrite <- !app_assoc in E.
    destruct (decN_decimal (line (e_pos e))) as [Nl _], (decN_decimal (col (e_pos e))) as [Nc _], (decN_decimal (offset (e_pos e))) as [Nk _].
    apply digits_end in E; [|assumption|assumption|unfold digit; cbn; lia]. destruct E as [_ E].
    apply digits_end in E; [|assumption|assumption|unfold digit; cbn; lia]. destruct E as [_ E].
    inversion E as [E1]. apply digits_end in E1; [|assumption|assumption|unfold digit; cbn; lia]. destruct E1 as [_ E1].
    destruct T as [T|T]; [destruct (e_rule e); [discriminate|contradiction]|]. destruct (e_rule e); [discriminate|]. rewrite T in E1. discriminate.
  Qed.

  (** A run that ends in this error: File failed with no other error. *)
  Lemma no_match_run fn data l c k dl dc dk more : decimal l dl -> decimal c dc -> decimal k dk ->
    Parse gp fn data = Err (label fn (dl ++ str ":" ++ dc ++ str " (" ++ dk ++ str "): no match found" ++ more)) ->
    exists v en s, PE (parse_bound data) (str "File") g_File [] (start data) = PRes v false en s /\ errs s = [] /\ N.to_nat (offset (fail_pos s)) = k.
  Proof.
    intros Dl Dc Dk E. pose proof (parse_terminates gp data) as T.
    assert (Bad : forall es, es <> [] -> Forall tagged es ->
      errlist_err fn es <> Some (label fn (dl ++ str ":" ++ dc ++ str " (" ++ dk ++ str "): no match found" ++ more))).
    { intros [|e es] Ne Tg X; [congruence|]. cbn [errlist_err] in X. injection X as Y. cbn [map dedupe existsb] in Y. rewrite render_label in Y.
      apply Forall_inv in Tg. rename Tg into Te.
      set (tl := dedupe [label fn (plain e)] (map (render_error fn) es)) in Y. match type of Y with ?a = _ => change a with (join_with [nl] (label fn (plain e) :: tl)) in Y end.
      assert (Z : exists extra, join_with [nl] (label fn (plain e) :: tl) = label fn (plain e ++ extra)).
      { destruct tl as [|x tl]; [exists []; rewrite app_nil_r; reflexivity|]. eexists ([nl] ++ join_with [nl] (x :: tl)).
        unfold label. destruct fn; [reflexivity|]. cbn [app join_with]. rewrite <- !app_assoc. reflexivity. }
      destruct Z as [extra Z]. rewrite Z in Y. apply label_inj in Y. exact (tagged_text e l c k more dl dc dk extra Te Dl Dc Dk Y). }
    pose proof (proj1 (engine_prog (run_action gp) the_grammar grammar_tame grammar_lits data (parse_bound data)) (str "File") g_File [] (start data)
      ltac:(vm_compute; reflexivity) ltac:(vm_compute; reflexivity) (init_inv data) (proj2 (proj2 (start_fail data)))) as Pr.
    unfold Parse, parse_fuel in E. fold (start data) in E.
    destruct (PE (parse_bound data) (str "File") g_File [] (start data)) as [|m rl s|v [] en s] eqn:R; cbn [prog] in Pr.
    - contradiction.
    - exfalso. cbn [addErrAt errs] in E. destruct (errlist_err _ _) as [t|] eqn:X; [cbn in E; inversion E; subst|apply errlist_none in X; destruct (errs s); discriminate].
      apply Bad in X; [exact X|destruct (errs s); discriminate|]. apply Forall_app. split; [apply Pr, start_tagged|]. constructor; [|constructor]. left. discriminate.
    - exfalso. destruct (errlist_err fn (errs s)) as [t|] eqn:X; cbn in E; [inversion E; subst|destruct v; discriminate].
      apply Bad in X; [exact X| |apply Pr, start_tagged]. intros N. rewrite N in X. discriminate.
    - exists v, en, s. split; [reflexivity|]. destruct (errs s) as [|e es] eqn:N.
      + split; [reflexivity|]. cbn [errs addErrAt] in E. rewrite N in E. cbn [app] in E. cbn [errlist_err map dedupe existsb join_with cast] in E.
        rewrite render_label in E. inversion E as [Y]. apply label_inj in Y. unfold plain, render_error, render_pos in Y. cbn [app e_pos e_rule] in Y. rewrite <- !app_assoc in Y.
        destruct (decN_decimal (line (fail_pos s))) as [Nl _], (decN_decimal (col (fail_pos s))) as [Nc _], (decN_decimal (offset (fail_pos s))) as (Nk & Nk2 & _).
        destruct Dl as [Dl _], Dc as [Dc _], Dk as (Dk & Dk2 & _).
        apply digits_end in Y; [|assumption|assumption|unfold digit; cbn; lia]. destruct Y as [_ Y].
        apply digits_end in Y; [|assumption|assumption|unfold digit; cbn; lia]. destruct Y as [_ Y].
        inversion Y as [Y1]. apply digits_end in Y1; [|assumption|assumption|unfold digit; cbn; lia]. destruct Y1 as [Y1 _]. congruence.
      + exfalso. destruct (errlist_err fn (e :: es)) as [t|] eqn:X; [|discriminate]. cbn in E. inversion E; subst.
        apply Bad in X; [exact X|discriminate|]. apply Pr, start_tagged.
  Qed.
End Local.

Definition PE' (gp : text -> res gexpr) (n : nat) (data : text) : pres := parse_expr (run_action gp) the_grammar n (str "File") g_File [] (start data).

(** * C51: the mistake is at the reported place, not later
    When parsing fails with "no match found" at byte [k], the eight bytes from there
    on and what precedes them already make the parser report exactly this error:
    no change further on can make the text parse, or even change the message. *)
Theorem C51_error_is_local :
  forall gp fn data l c k dl dc dk more, decimal l dl -> decimal c dc -> decimal k dk ->
    Parse gp fn data = Err (label fn (dl ++ str ":" ++ dc ++ str " (" ++ dk ++ str "): no match found" ++ more)) ->
    forall data', firstn (k + 8) data' = firstn (k + 8) data -> Parse gp fn data' = Parse gp fn data.
Proof.
  intros gp fn data l c k dl dc dk more Dl Dc Dk E data' A.
  destruct (no_match_run gp fn data l c k dl dc dk more Dl Dc Dk E) as (v & en & s & R & N & K).
  assert (A' : firstn (N.to_nat (N.of_nat k) + 8) data = firstn (N.to_nat (N.of_nat k) + 8) data') by (rewrite Nat2N.id; auto).
  destruct (local_fail (run_action gp) the_grammar grammar_tame grammar_lits data data' (N.of_nat k) A' (parse_bound data) (str "File") g_File (start data) (start data') v en s)
    as (s' & R' & H); auto.
  - apply (start_Rs data data' (N.of_nat k)). exact A'.
  - apply start_fail.
  - unfold off, start. rewrite read_pt_eq, read_pt_offset. cbn. lia.
  - unfold fpos. lia.
  - assert (T' : PE' gp (parse_bound data') data' = PRes v false en s').
    { unfold PE'. rewrite <- R'. apply fuel_same; [apply parse_terminates|rewrite R'; discriminate]. }
    unfold PE' in T'. unfold Parse, parse_fuel. fold (start data). fold (start data'). rewrite R, T', N.
    destruct H as (_ & _ & _ & H1 & H2 & H3 & _). rewrite <- H1, N, <- H2, <- H3. cbn [errs addErrAt]. rewrite <- H1. reflexivity.
Qed.
Print Assumptions C51_error_is_local.

(** In particular, what follows cannot help. *)
Theorem C51_appending :
  forall gp fn data l c k dl dc dk more, decimal l dl -> decimal c dc -> decimal k dk ->
    Parse gp fn data = Err (label fn (dl ++ str ":" ++ dc ++ str " (" ++ dk ++ str "): no match found" ++ more)) ->
    k + 8 <= List.length data -> forall tail, Parse gp fn (data ++ tail) = Parse gp fn data.
Proof.
  intros gp fn data l c k dl dc dk more Dl Dc Dk E L tail. apply (C51_error_is_local gp fn data l c k dl dc dk more Dl Dc Dk E).
  rewrite firstn_app. replace (k + 8 - List.length data) with 0 by lia. rewrite firstn_O, app_nil_r. reflexivity.
Qed.
Print Assumptions C51_appending.

Example C51_example :
  let data := str "(Add x y -> (Foo x)" ++ [nl] ++ str "(Bar) -> (Baz)" ++ [nl] in
  9 + 8 <= List.length data /\ exists more, decimal 1 (str "1") /\ decimal 10 (str "10") /\ decimal 9 (str "9") /\
    Parse ParseExpr (str "x.rules") data = Err (label (str "x.rules") (str "1" ++ str ":" ++ str "10" ++ str " (" ++ str "9" ++ str "): no match found" ++ more)).
Proof.
  assert (D : forall n t, Forall digit t /\ number t = n /\ t <> [] /\ (t <> ["0"%char] -> hd_error t <> Some "0"%char) -> decimal n t) by (intros; exact H).
  split; [cbn; lia|]. eexists. split; [|split; [|split; [|vm_compute; reflexivity]]]; apply D;
    (split; [repeat constructor; unfold digit; cbn; lia|split; [vm_compute; reflexivity|split; discriminate]]).
Qed.
