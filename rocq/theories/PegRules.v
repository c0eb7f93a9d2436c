(** The generated table accepts what rules.peg describes, with the same results. *)
From Verif Require Import Text GoAst Ast Utf8 GoExpr Peg Grammar PegFile PegPoints PegSem PegSim.
From Coq Require Import NArith Arith Bool Lia.
Open Scope N_scope.

(** The rules the optimiser leaves in the table. *)
Definition kept (n : text) : Prop := In n (map fst grammar_rules).

Section Rules.
  Variable gp : text -> res gexpr.
  Notation R1 := (peg_run gp).
  Notation R2 := (run_action gp).

  (** The merged class of the table's Skip. *)
  Notation ws_class := (@PClass action (str "[ \t\r\n]") [32; 9; 13; 10] [] false).
  Lemma ws_class_split x : in_class [32; 9; 13; 10] [] false x = in_class [32; 9; 13] [] false x || (x =? 10).
  Proof.
    unfold in_class. cbn. rewrite !orb_false_r, !xorb_false_r, !orb_assoc. reflexivity.
  Qed.
  Definition ws_out (en : env) (t : text) : out :=
    match t with
    | [] => Fail
    | _ => if in_class [32; 9; 13; 10] [] false (first_rune t) then Good (VBytes (first_bytes t)) en (after_rune t) else Fail
    end.
  Lemma ws_table en t : sem_alts R2 the_grammar [ws_class] en t (ws_out en t).
  Proof.
    destruct t as [|c t]; cbn [ws_out].
    - eapply alts_fail; [|apply alts_nil]. apply sem_class_fail. left. reflexivity.
    - destruct (in_class _ _ _ _) eqn:E.
      + eapply alts_good. apply sem_class; [discriminate|exact E].
      + eapply alts_fail; [|apply alts_nil]. apply sem_class_fail. right. exact E.
  Qed.
  Lemma eol_first c t : (first_rune (c :: t) =? 10) = (byte_val c =? 10).
  Proof.
    unfold first_rune. destruct (decode_rune (c :: t)) as [r n] eqn:D. cbn [fst].
    destruct (r =? 10) eqn:E; symmetry.
    - apply N.eqb_eq in E. subst. apply decode_small in D; [|lia]. destruct D as (<- & _ & _). reflexivity.
    - apply N.eqb_neq in E. apply N.eqb_neq. intros B. rewrite decode_ascii in D by lia. inversion D. congruence.
  Qed.
  Lemma ws_file en t : sem_alts R1 peg_grammar [ref "Whitespace"; ref "EOL"] en t (ws_out en t).
  Proof.
    destruct t as [|c t]; cbn [ws_out].
    - eapply alts_fail; [eapply sem_ref_fail; [reflexivity|apply sem_class_fail; left; reflexivity]|].
      eapply alts_fail; [|apply alts_nil]. eapply sem_ref_fail; [reflexivity|]. apply sem_lit_fail. reflexivity.
    - rewrite ws_class_split. destruct (in_class _ _ _ _) eqn:E; cbn [orb].
      + eapply alts_good. eapply sem_ref; [reflexivity|]. apply sem_class; [discriminate|exact E].
      + eapply alts_fail; [eapply sem_ref_fail; [reflexivity|apply sem_class_fail; right; exact E]|].
        rewrite eol_first. destruct (byte_val c =? 10) eqn:B.
        * apply N.eqb_eq in B. assert (D : decode_rune (c :: t) = (byte_val c, 1%nat)) by (apply decode_ascii; lia).
          assert (F : first_bytes (c :: t) = [c]) by (unfold first_bytes; rewrite D; reflexivity).
          assert (F' : after_rune (c :: t) = t) by (unfold after_rune; rewrite D; reflexivity).
          rewrite F, F'. eapply alts_good. eapply sem_ref; [reflexivity|].
          pose proof (consumed_app [c] t) as C. cbn [app] in C. replace (VBytes [c]) with (VBytes (consumed (c :: t) t)) by (rewrite C; reflexivity). apply sem_lit. cbn. rewrite B. reflexivity.
        * eapply alts_fail; [|apply alts_nil]. eapply sem_ref_fail; [reflexivity|]. apply sem_lit_fail. cbn. rewrite B. reflexivity.
  Qed.
  Lemma ws_outs vm en1 en2 t : outs vm Obl en1 en2 (ws_out en1 t) (ws_out en2 t).
  Proof. destruct t; cbn; [exact I|]. destruct (in_class _ _ _ _); cbn; auto. Qed.

  Lemma merge_there vm en1 en2 t o : sem_alts R1 peg_grammar [ref "Whitespace"; ref "EOL"] en1 t o ->
    exists o2, sem_alts R2 the_grammar [ws_class] en2 t o2 /\ outs vm Obl en1 en2 o o2.
  Proof.
    intros H. pose proof (proj1 (proj2 (sem_fun R1 peg_grammar)) _ _ _ _ H _ (ws_file en1 t)). subst.
    exists (ws_out en2 t). split; [apply ws_table|apply ws_outs].
  Qed.
  Lemma merge_back vm en1 en2 t o : sem_alts R2 the_grammar [ws_class] en1 t o ->
    exists o2, sem_alts R1 peg_grammar [ref "Whitespace"; ref "EOL"] en2 t o2 /\ outs vm Obl en1 en2 o o2.
  Proof.
    intros H. pose proof (proj1 (proj2 (sem_fun R2 the_grammar)) _ _ _ _ H _ (ws_table en1 t)). subst.
    exists (ws_out en2 t). split; [apply ws_file|apply ws_outs].
  Qed.

  Notation rel12 := (rel R1 R2 peg_grammar the_grammar kept).
  Notation rel21 := (rel R2 R1 the_grammar peg_grammar kept).

  Ltac is_kept := unfold kept; cbn; tauto.
  Ltac go :=
    match goal with
    | |- rel ?ra ?rb ?ga ?gb ?k ?vm ?m ?e1 ?e2 =>
        let e1 := eval hnf in e1 in let e2 := eval hnf in e2 in
        change_no_check (rel ra rb ga gb k vm m e1 e2);
        lazymatch constr:((e1, e2)) with
        | (PRef ?n, PRef ?n') => apply r_ref; is_kept
        | (PRef ?n, _) =>
            lazymatch m with Same => apply r_obl | _ => idtac end;
            eapply r_unfL; [reflexivity|discriminate|]
        | (_, PRef ?n) =>
            lazymatch m with Same => apply r_obl | _ => idtac end;
            eapply r_unfR; [reflexivity|discriminate|]
        | (PAction _ _, PAction _ _) =>
            lazymatch m with
            | Fresh => apply r_same
            | Same => apply r_action; [reflexivity|]
            | Obl => apply r_action_obl; [reflexivity|]
            end
        | (PSeq _, PSeq _) => lazymatch m with Fresh => apply r_same | _ => apply r_seq; [|discriminate] end
        | (PLabel _ _, PLabel _ _) => lazymatch m with Fresh => apply r_same | _ => apply r_label end
        | (PChoice _, PChoice _) => apply r_choice
        | (PNot _, PNot _) => apply r_not
        | (POpt _, POpt _) => apply r_opt
        | (PStar _, PStar _) => apply r_star
        | (PPlus _, PPlus _) => apply r_plus
        | (PLit _ _, PLit _ _) => apply r_lit
        | (PClass _ _ _ _, PClass _ _ _ _) => apply r_class
        | (PAny, PAny) => apply r_any
        end
    | |- rel_alts _ _ _ _ _ _ [_; _] [_] => apply ra_sem; intros; eapply merge_there; eassumption
    | |- rel_alts _ _ _ _ _ _ [_] [_; _] => apply ra_sem; intros; eapply merge_back; eassumption
    | |- rel_alts _ _ _ _ _ _ [] _ => apply ra_nil
    | |- rel_alts _ _ _ _ _ _ (_ :: _) _ => apply ra_cons
    | |- rel_seq ?ra ?rb ?ga ?gb ?k ?vm ?m ?x ?y =>
        let x := eval hnf in x in let y := eval hnf in y in
        change_no_check (rel_seq ra rb ga gb k vm m x y);
        lazymatch x with [] => apply rs_nil | _ :: _ => apply rs_cons; [|discriminate|] end
    end.

  Lemma bodies12 n : kept n -> exists b1 b2, peg_grammar n = Some b1 /\ the_grammar n = Some b2 /\ rel12 true Fresh b1 b2.
  Proof.
    intros K. cbn in K.
    repeat match goal with H : _ \/ _ |- _ => destruct H as [<-|H] end; [..|contradiction];
      do 2 eexists; (split; [reflexivity|split; [reflexivity|]]).
    1-6: repeat go.
    apply r_same, r_obl. go. go.
    apply (rs_flatL R1 R2 peg_grammar the_grammar kept (str "Ident") g_ident); repeat go.
  Qed.
  Lemma bodies21 n : kept n -> exists b1 b2, the_grammar n = Some b1 /\ peg_grammar n = Some b2 /\ rel21 true Fresh b1 b2.
  Proof.
    intros K. cbn in K.
    repeat match goal with H : _ \/ _ |- _ => destruct H as [<-|H] end; [..|contradiction];
      do 2 eexists; (split; [reflexivity|split; [reflexivity|]]).
    1-6: repeat go.
    apply r_same, r_obl. go. go.
    eapply rs_flatR; [reflexivity|]. apply rf_cons; [repeat go|]. apply rf_one; repeat go.
  Qed.

  Theorem rule_matches n t o : kept n ->
    sem R2 the_grammar (PRef n) [] t o <-> sem R1 peg_grammar (PRef n) [] t o.
  Proof.
    intros K. split; intros H.
    - destruct (proj1 (sim _ _ _ _ _ bodies21) _ _ _ _ H true Same (PRef n) (r_ref _ _ _ _ _ _ _ _ K) [] eq_refl) as (o2 & S & O).
      destruct o, o2; cbn in O; try contradiction; [exact S|]. destruct O as (<- & V & <-). rewrite (V eq_refl). exact S.
    - destruct (proj1 (sim _ _ _ _ _ bodies12) _ _ _ _ H true Same (PRef n) (r_ref _ _ _ _ _ _ _ _ K) [] eq_refl) as (o2 & S & O).
      destruct o, o2; cbn in O; try contradiction; [exact S|]. destruct O as (<- & V & <-). rewrite (V eq_refl). exact S.
  Qed.
End Rules.
