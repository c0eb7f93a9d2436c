(** Edits of a file that shares nothing, as a parsed file is. *)
From Verif Require Import Text GoAst Ast Expand Parse Heap HeapVisit HeapPrint HeapParse SpecHeap SpecTree SpecVisit SpecFresh SpecExpand
  HeapFacts HeapNil HeapPrintFacts HeapParseFacts FreshDump FeatureFacts SynShape ParseUse VisitFacts.
From Coq Require Import Arith Lia.

Section Cells.
  Variable g : nat -> option cell.
  Lemma met_cells : forall w cs, value_cells g w cs -> forall l, met g w l -> le_cells l cs.
  Proof.
    fix IH 3. intros w cs V l M. destruct V as [p c ws css G Sl F|p|x|]; inversion M; subst; try (intros y; cbn; lia).
    match goal with A : g p = Some (CSExpr ?c1) |- _ => rewrite G in A; injection A as <- end.
    match goal with A : slice_at _ (h_args c) ?w1, B : Forall2 (met g) ?w1 _ |- _ => pose proof (slice_at_fun _ _ _ _ Sl A) as <-; rename B into Fm end.
    assert (L : forall y, cnt (List.concat ls) y <= cnt (List.concat css) y).
    { clear -IH F Fm. revert ls Fm. induction F as [|w d ws ds V F IHF]; intros ls Fm y; inversion Fm; subst; [cbn; lia|]. cbn [List.concat].
      rewrite !cnt_app. pose proof (IH _ _ V _ H1 y). specialize (IHF _ H3 y). lia. }
    intros y. rewrite !cnt_cons, !cnt_app. specialize (L y). lia.
  Qed.
  Lemma met_rule_cells w cs l : rule_cells g w cs -> met_rule g w l -> le_cells l cs.
  Proof.
    intros (p & c & m & r & -> & G & Vm & Vr & ->) (p1 & c1 & lm & lr & E & G1 & Mm & Mr & ->). injection E as <-. rewrite G in G1. injection G1 as <-.
    intros y. rewrite cnt_cons, !cnt_app. pose proof (met_cells _ _ Vm _ Mm y). pose proof (met_cells _ _ Vr _ Mr y). lia.
  Qed.
  Lemma met_file_cells f cs l : file_cells g f cs -> met_file g f l -> le_cells l cs.
  Proof.
    intros (sl & ws & css & G & Sl & F & ->) (sl1 & ws1 & ls & G1 & Sl1 & Fm & ->). rewrite G in G1. injection G1 as <-. pose proof (slice_at_fun _ _ _ _ Sl Sl1) as <-.
    assert (L : forall y, cnt (List.concat ls) y <= cnt (List.concat css) y).
    { clear -F Fm. revert ls Fm. induction F as [|w d ws ds V F IHF]; intros ls Fm y; inversion Fm; subst; [cbn; lia|]. cbn [List.concat].
      rewrite !cnt_app. pose proof (met_rule_cells _ _ _ V H1 y). specialize (IHF _ H3 y). lia. }
    intros y. rewrite cnt_cons, cnt_app. specialize (L y). lia.
  Qed.
End Cells.

Lemma met_length g t : forall w l, value_at g w t -> met g w l -> List.length l = sexprs_of_value t.
Proof.
  induction t as [x IH|ex|z|] using value_ind'; intros w l V Mt; inversion V; subst; inversion Mt; subst; try reflexivity.
  match goal with A : g p = Some (CSExpr c), B : g p = Some (CSExpr ?c1) |- _ => rewrite A in B; injection B as <- end.
  match goal with A : slice_at _ (h_args c) ws, B : slice_at _ (h_args c) ?w1 |- _ => pose proof (slice_at_fun _ _ _ _ A B) as <-; clear B end.
  cbn [List.length sexprs_of_value]. f_equal.
  match goal with A : Forall2 (value_at _) ws _, B : Forall2 (met _) ws ls |- _ => rename A into F; rename B into Fm end.
  clear -IH F Fm. revert ls Fm. induction F as [|w t ws ts V F IHF]; intros ls Fm; inversion Fm; subst; inversion IH; subst; [reflexivity|].
  cbn [List.concat map list_sum fold_right]. rewrite app_length. change (fold_right Nat.add 0) with list_sum. erewrite IHF; eauto.
Qed.
Lemma met_rule_length g w r l : rule_at g w r -> met_rule g w l -> List.length l = sexprs_of_rule r.
Proof.
  intros (p & c & -> & G & Vm & _ & _ & Vr) (p1 & c1 & lm & lr & E1 & G1 & Mm & Mr & ->). injection E1 as <-. rewrite G in G1. injection G1 as <-.
  rewrite app_length. unfold sexprs_of_rule. erewrite !met_length; eauto.
Qed.
Lemma met_file_length g f F l : file_at g f F -> met_file g f l -> List.length l = sexprs_of_file F.
Proof.
  intros (sl & ws & G & Sl & R) (sl1 & ws1 & ls & G1 & Sl1 & Mt & ->). rewrite G in G1. injection G1 as <-. pose proof (slice_at_fun _ _ _ _ Sl Sl1) as <-.
  unfold sexprs_of_file. clear -R Mt. revert ls Mt. induction R as [|w r ws rs V R IHR]; intros ls Fm; inversion Fm; subst; [reflexivity|].
  cbn [List.concat map list_sum fold_right]. rewrite app_length. change (fold_right Nat.add 0) with list_sum. erewrite IHR, met_rule_length; eauto.
Qed.

(** An edit leaves the height. *)
Lemma edit_height e v : height (edit_value e v) = height v.
Proof.
  induction v as [x IH|ex|z|] using value_ind'; try reflexivity. cbn. f_equal. rewrite map_map. f_equal.
  induction IH as [|a l Ha _ IHl]; [reflexivity|]. cbn. rewrite Ha, IHl. reflexivity.
Qed.
Lemma edit_file_height e F : file_height (edit_file e F) = file_height F.
Proof.
  unfold file_height, edit_file. cbn [f_rules]. rewrite map_map. f_equal. apply map_ext. intros r. unfold rule_height, edit_rule. cbn. rewrite !edit_height. reflexivity.
Qed.
Lemma parsed_nil_free gp fn data f : Parse gp fn data = Ok f -> nil_free (NFile f).
Proof.
  intros P. apply parsed_proper in P. intros O. destruct (occurs_inv _ _ O) as [E|(c & I & Oc)]; [discriminate|]. cbn in I. apply in_map_iff in I. destruct I as (r & <- & I).
  rewrite Forall_forall in P. exact (proper_nil_free _ (P _ I) Oc).
Qed.
