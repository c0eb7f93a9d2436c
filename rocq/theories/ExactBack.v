(** The converse for whole files: if the printed text of placed rules is read as those
    rules, nothing in their expressions runs together. *)
From Verif Require Import Text GoAst Ast Utf8 GoExpr Parse Printer GoParser SpecPrint SpecUtf8 SpecSyntax SpecTrees SpecGo SpecBack PrintFacts
  SynExpr SynShape SynPrint ParseFacts ParseUse GoBack GoExact.
From Coq Require Import NArith Arith Bool Lia.
Open Scope nat_scope.
Open Scope list_scope.

(** A reader that reads what Go reads, and an identifier otherwise. *)
Definition loose (t : text) : res gexpr :=
  match ParseExpr t with
  | Ok raw => match unsupported raw with None => Ok raw | Some _ => Ok (GIdent NoPos (str "q")) end
  | _ => Ok (GIdent NoPos (str "q"))
  end.
Definition sgm (e : gexpr) : gexpr := match loose (go_text e) with Ok raw => bare raw | _ => GNil end.

Lemma loose_mono t e : reads ParseExpr t e -> reads loose t e.
Proof.
  intros (raw & E & Sp & ->). exists raw. split; [|auto]. unfold loose. rewrite E. destruct (unsupported raw) eqn:U; [|reflexivity].
  exfalso. apply unsupported_spec in Sp. congruence.
Qed.
Lemma loose_reads e : reads loose (go_text e) (sgm e).
Proof.
  unfold sgm. destruct (loose (go_text e)) as [raw|x|x] eqn:E.
  - exists raw. split; [exact E|]. split; [|reflexivity]. unfold loose in E. destruct (ParseExpr (go_text e)) as [r|y|y]; [destruct (unsupported r) eqn:U|..]; inversion E; subst; try exact I.
    apply unsupported_spec. exact U.
  - unfold loose in E. destruct (ParseExpr (go_text e)) as [r|y|y]; [destruct (unsupported r)|..]; discriminate.
  - unfold loose in E. destruct (ParseExpr (go_text e)) as [r|y|y]; [destruct (unsupported r)|..]; discriminate.
Qed.
Lemma sgm_smooth e : ordered e -> sgm e = e -> smooth e.
Proof.
  intros O E. unfold sgm, loose in E. destruct (ParseExpr (go_text e)) as [r|y|y] eqn:P; [destruct (unsupported r) eqn:U|..]; try (rewrite <- E; exact I).
  apply reads_smooth; auto. exists r. split; [exact P|]. split; [apply unsupported_spec; exact U|auto].
Qed.
Lemma sub_v_same v : sub_v sgm v = v -> Forall (fun e => sgm e = e) (value_exprs v).
Proof.
  induction v as [[b o ty ai ax args el tr] IH|e|x|] using value_ind'; cbn [sub_v value_exprs s_binding s_op s_type s_auxint s_aux s_args s_ellipsis s_trailing]; intros E; try constructor; try constructor.
  - cbn [s_args] in IH. injection E as E1 E2 E3. rewrite !Forall_app. split; [destruct ai; cbn in *; constructor; congruence || constructor|]. split; [destruct ax; cbn in *; constructor; congruence || constructor|].
    clear -IH E3. induction IH as [|a l Ha _ IHl]; [constructor|]. cbn in E3. injection E3 as Ea El. cbn. apply Forall_app. auto.
  - inversion E. congruence.
Qed.
Lemma sub_r_same r : sub_r sgm r = r -> Forall (fun e => sgm e = e) (rule_exprs r).
Proof.
  destruct r as [m c b res]. unfold sub_r, rule_exprs. cbn [r_match r_cond r_block r_result]. intros E. injection E as E1 E2 E3. rewrite !Forall_app.
  split; [apply sub_v_same; exact E1|]. split; [destruct c; cbn in *; constructor; congruence || constructor|apply sub_v_same; exact E3].
Qed.

Theorem exact_back fn rs t : Forall lex_rule rs -> Forall placed_rule rs ->
  Bytes (NFile (mkFile rs)) = Ok t -> Parse ParseExpr fn t = Ok (mkFile rs) -> Forall (fun r => Forall smooth (rule_exprs r)) rs.
Proof.
  intros L W B P.
  assert (G : Forall (sub_go_rule loose sgm) rs).
  { eapply Forall_impl; [|exact W]. intros r Wr. apply placed_go_rule; [exact loose_mono|exact Wr|]. apply Forall_forall. intros e _. apply loose_reads. }
  destruct (sub_print_parse loose sgm rs fn L G) as (t' & B' & P'). assert (t' = t) as -> by congruence.
  apply (parse_mono ParseExpr loose) in P; [|exact loose_mono]. rewrite P in P'. injection P' as E. symmetry in E.
  clear -W E. induction rs as [|r rs IH]; [constructor|]. inversion W; subst. cbn [map] in E. injection E as Er Es. constructor; [|apply IH; assumption].
  apply sub_r_same in Er. pose proof (placed_each r H1) as Pl. rewrite Forall_forall in *. intros e I. apply sgm_smooth; auto. apply (Pl e I).
Qed.
