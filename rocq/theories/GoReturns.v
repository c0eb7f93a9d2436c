(** Carriage returns: what is read never has more of them than the text, and if it has
    as many, no literal has lost one. *)
From Verif Require Import Text GoAst Ast Utf8 SpecPrint SpecUtf8 SpecSyntax SpecTrees SpecGo SpecBack SpecTrim SynTrim SizeFacts GoParser GoNumber GoLex GoWords GoText GoTree GoOrdered GoBack GoExact SynFile.
From Coq Require Import NArith Arith Bool Lia.
Open Scope nat_scope.
Open Scope list_scope.
Open Scope res_scope.

Definition returns (s : text) : nat := List.length (filter (fun c => ch c cr) s).
Lemma returns_app a b : returns (a ++ b) = returns a + returns b.
Proof. unfold returns. rewrite filter_app, app_length. reflexivity. Qed.
Lemma returns_cons c s : returns (c :: s) = returns [c] + returns s.
Proof. apply (returns_app [c]). Qed.
Lemma returns_none a : returns (no_cr a) = 0.
Proof. induction a as [|c a IH]; [reflexivity|]. cbn [no_cr filter]. destruct (ch c cr) eqn:E; cbn [negb]; [exact IH|]. unfold returns. cbn [filter]. rewrite E. exact IH. Qed.
Lemma no_returns a : returns a = 0 -> no_cr a = a.
Proof.
  induction a as [|c a IH]; [reflexivity|]. unfold returns. cbn [filter no_cr]. destruct (ch c cr) eqn:E; [discriminate|]. cbn [negb]. intros H. f_equal. apply IH. exact H.
Qed.

Definition piece (s v : text) : Prop := exists a b, s = a ++ v ++ b.
Lemma piece_after a s v : piece s v -> piece (a ++ s) v.
Proof. intros (x & y & ->). exists (a ++ x), y. rewrite <- app_assoc. reflexivity. Qed.
Lemma piece_first v b : piece (v ++ b) v.
Proof. exists [], b. reflexivity. Qed.

Definition kept (t : gtoken) : nat := match t with TIdent x => returns x | TLit _ v => returns v | _ => 0 end.
Definition kepts (ts : list gtoken) : nat := list_sum (map kept ts).
Lemma kepts_cons t ts : kepts (t :: ts) = kept t + kepts ts. Proof. reflexivity. Qed.
Lemma kepts_app a b : kepts (a ++ b) = kepts a + kepts b.
Proof. unfold kepts. rewrite map_app. apply list_sum_app. Qed.

(** Nothing is gained, and if nothing is lost the literals are as written. *)
Definition whole (s : text) (t : gtoken) : Prop := match t with TLit _ v => piece s v | _ => True end.
Definition held (s : text) (us : list gtoken) : Prop := kepts us <= returns s /\ (returns s <= kepts us -> Forall (whole s) us).
Lemma whole_after a s t : whole s t -> whole (a ++ s) t.
Proof. destruct t; cbn; auto. apply piece_after. Qed.
Lemma held_skip a s us : held s us -> held (a ++ s) us.
Proof.
  intros [L W]. split; rewrite returns_app; [lia|]. intros G. eapply Forall_impl; [|apply W; lia]. intros t. apply whole_after.
Qed.
Lemma held_token a s t us : kept t <= returns a -> (returns a <= kept t -> whole (a ++ s) t) -> held s us -> held (a ++ s) (t :: us).
Proof.
  intros K T [L W]. split; rewrite returns_app, kepts_cons; [lia|]. intros G. constructor; [apply T; lia|].
  eapply Forall_impl; [|apply W; lia]. intros u. apply whole_after.
Qed.
Lemma held_cons c s us : held s us -> held (c :: s) us. Proof. exact (held_skip [c] s us). Qed.
Lemma comment_skips s : forall b h r, comment_end s b = Some (h, r) -> exists a, s = a ++ r.
Proof.
  induction s as [|c s IH]; cbn [comment_end]; [discriminate|]. intros b h r.
  destruct s as [|d s']; [discriminate|]. destruct (ch c "*" && ch d "/").
  - intros E. inversion E; subst. exists [c; d]. reflexivity.
  - intros E. apply IH in E. destruct E as [a E]. exists (c :: a). cbn [app]. rewrite E. reflexivity.
Qed.
Lemma operator_kept s t k : lex_operator s = Some (t, k) -> kept t = 0 /\ forall s', whole s' t.
Proof.
  unfold lex_operator. destruct (find _ operators) as [[o t']|] eqn:F; [|discriminate].
  intros E. inversion E; subst t' k. clear E. pose proof (find_some _ _ F) as [Hin _]. clear F. unfold operators in Hin. cbn [In] in Hin.
  repeat (destruct Hin as [Hin|Hin]; [inversion Hin; subst; split; [reflexivity|exact (fun _ => I)]|]). contradiction.
Qed.

Lemma lex_held n : forall semi pos s ts, lex n semi pos s = Ok ts -> held s (kinds ts).
Proof.
  induction n as [|n IH]; intros semi pos s ts; [discriminate|]. cbn [lex].
  assert (EM : forall t b (k : nat) a s' ts, kept t <= returns a -> (returns a <= kept t -> whole (a ++ s') t) ->
    (let* ts := lex n b (pos + N.of_nat k)%N s' in Ok ((t, pos) :: ts)) = Ok ts -> held (a ++ s') (kinds ts)).
  { intros t b k a s' ts' K T E. destruct (lex n b _ s') as [l| |] eqn:L; cbn in E; try discriminate.
    inversion E; subst. cbn [map fst]. apply held_token; auto. apply IH in L. exact L. }
  assert (OP : forall s ts, match lex_operator s with
      | Some (t, k) => (let* ts := lex n (ends_statement t) (pos + N.of_nat k)%N (skipn k s) in Ok ((t, pos) :: ts))
      | None => Err (str "illegal character") end = Ok ts -> held s (kinds ts)).
  { intros s0 ts0. destruct (lex_operator s0) as [[t k]|] eqn:O; [|discriminate]. apply operator_kept in O. destruct O as [K W].
    intros E. rewrite <- (firstn_skipn k s0). eapply EM; [rewrite K; lia|intros _; apply W|exact E]. }
  destruct s as [|c s']. { destruct semi; intros E; inversion E; subst; (split; [cbn; lia|]); repeat constructor. }
  destruct (ch c nl).
  { destruct semi; intros E; [|apply IH in E; apply held_cons; exact E]. eapply (EM TSemi false 1 [c]); [cbn; lia|intros _; exact I|exact E]. }
  destruct (ch c sp || ch c tab || ch c cr). { intros E. apply IH in E. apply held_cons. exact E. }
  destruct (is_letter c).
  { destruct (span is_alnum (c :: s')) as [w r] eqn:S. apply span_eq in S. destruct S as [-> _].
    destruct (is_keyword w); [|destruct (good_name w); [|discriminate]]; (eapply EM; [cbn; lia|intros _; exact I]). }
  destruct (is_digit c || _).
  { destruct (lex_number (c :: s')) as [[[k v] r]|] eqn:L; [|discriminate].
    apply number_shaped in L. destruct L as [-> _]. eapply EM; [cbn; lia|intros _; apply piece_first]. }
  destruct (ch c dquote).
  { destruct (quoted dquote false s') as [[a r]|] eqn:Q; [|discriminate]. apply quoted_eq in Q. destruct Q as [-> _].
    destruct (good_quoted _ _); [|discriminate]. apply (EM _ _ _ (c :: a)); [apply le_n|intros _; apply (piece_first (c :: a))]. }
  destruct (ch c "'").
  { destruct (quoted "'" false s') as [[a r]|] eqn:Q; [|discriminate]. apply quoted_eq in Q. destruct Q as [-> _].
    destruct (good_quoted _ _); [|discriminate]. apply (EM _ _ _ (c :: a)); [apply le_n|intros _; apply (piece_first (c :: a))]. }
  destruct (ch c "`") eqn:Cb.
  { destruct (quoted "`" true s') as [[a r]|] eqn:Q; [|discriminate]. apply quoted_eq in Q. destruct Q as [-> _]. apply ch_eq in Cb. subst c.
    apply (EM _ _ _ ("`"%char :: a)); fold (no_cr a); cbn [kept]; change (returns ("`"%char :: a)) with (returns a); change (returns ("`"%char :: no_cr a)) with (returns (no_cr a)); rewrite returns_none; [lia|]. intros Le. cbn [whole]. rewrite no_returns by lia. apply (piece_first ("`"%char :: a)). }
  destruct s' as [|d s'']; [apply OP|].
  destruct (ch c "/" && ch d "/").
  { destruct (span _ s'') as [a r] eqn:S. apply span_eq in S. destruct S as [-> _]. intros E. apply IH in E. apply (held_skip ([c; d] ++ a)) in E. exact E. }
  destruct (ch c "/" && ch d "*"); [|apply OP].
  destruct (comment_end s'' false) as [[h r]|] eqn:C; [|discriminate]. apply comment_skips in C. destruct C as [a ->].
  destruct (semi && h); intros E.
  - destruct (lex n false _ r) as [l| |] eqn:L; cbn in E; try discriminate. inversion E; subst. apply IH in L. cbn [map fst]. apply (held_token (c :: d :: a)); [cbn; lia|intros _; exact I|exact L].
  - apply IH in E. apply (held_skip ([c; d] ++ a)) in E. exact E.
Qed.

Lemma op_returns o : returns (tok_string o) = 0 /\ returns (op_text o) = 0.
Proof. destruct o; split; reflexivity. Qed.
Lemma spell_kept : (forall e us, spell e us -> returns (go_text e) = kepts us) /\
  (forall args us, spell_args args us -> returns (sep_by (str ", ") (map go_text args)) = kepts us).
Proof.
  apply spell_both; intros; cbn [go_text map sep_by].
  - cbn. lia.
  - cbn. lia.
  - rewrite !returns_app, kepts_cons, kepts_app. cbn. lia.
  - rewrite returns_app, kepts_cons, (proj1 (op_returns o)). cbn [kept]. lia.
  - rewrite returns_app, kepts_cons. cbn [kept]. change (returns (str "*")) with 0. lia.
  - rewrite !returns_app, kepts_app, kepts_cons, (proj2 (op_returns o)). cbn [kept]. lia.
  - rewrite !returns_app, kepts_app. cbn. lia.
  - rewrite !returns_app, kepts_app, kepts_cons, kepts_app. change (returns (str "(")) with 0. change (returns (str ")")) with 0. change (kepts [TRParen]) with 0. cbn [kept]. lia.
  - reflexivity.
  - rewrite kepts_app. assert (kepts t = 0) as -> by (destruct t0 as [->|[->| ->]]; reflexivity). lia.
  - destruct args as [|a' args]; [inversion s0; subst; cbn [map]; rewrite kepts_app, kepts_cons; cbn in *; lia|]. cbn [map] in *. rewrite kepts_app, kepts_cons, !returns_app. change (returns (str ", ")) with 0. cbn [kept]. lia.
Qed.
Lemma spell_literals : (forall e us, spell e us -> forall v, In v (literals e) -> exists k, In (TLit k v) us) /\
  (forall args us, spell_args args us -> forall v, In v (flat_map literals args) -> exists k, In (TLit k v) us).
Proof.
  apply spell_both; cbn [literals flat_map]; intros; rewrite ?in_app_iff in *; cbn [In] in *; try contradiction.
  - destruct H as [->|[]]. exists k. auto.
  - destruct (H _ H0) as [k Hk]. exists k. right. apply in_or_app. auto.
  - destruct (H _ H0) as [k Hk]. exists k. auto.
  - destruct (H _ H0) as [k Hk]. exists k. auto.
  - destruct H1 as [H1|H1]; [destruct (H _ H1) as [k Hk]|destruct (H0 _ H1) as [k Hk]]; exists k; rewrite in_app_iff; cbn; auto.
  - destruct (H _ H0) as [k Hk]. exists k. apply in_or_app. auto.
  - destruct H1 as [H1|H1]; [destruct (H _ H1) as [k Hk]|destruct (H0 _ H1) as [k Hk]]; exists k; rewrite in_app_iff; cbn; rewrite in_app_iff; auto.
  - destruct H0 as [H0|[]]. destruct (H _ H0) as [k Hk]. exists k. apply in_or_app. auto.
  - destruct H1 as [H1|H1]; [destruct (H _ H1) as [k Hk]|destruct (H0 _ H1) as [k Hk]]; exists k; rewrite in_app_iff; cbn; auto.
Qed.

Lemma reads_held s e : reads ParseExpr s e -> returns (go_text e) <= returns s /\ (returns s <= returns (go_text e) -> Forall (piece s) (literals e)).
Proof.
  intros (raw & E & _ & ->). rewrite literals_bare, go_text_bare. unfold ParseExpr in E. destruct (scan s) as [ts|x|x] eqn:Sc; cbn [bind] in E; try discriminate.
  destruct (gp_binary (4 * List.length ts + 4) 1 ts) as [[e' r]|x|x] eqn:G; cbn [bind] in E; try discriminate. assert (e' = raw /\ kepts (kinds r) = 0) as [-> Z] by (destruct r as [|[[] p] [|? ?]]; inversion E; auto).
  destruct (proj1 (parse_spell _) 1 ts _ G) as (us & Ek & S). cbn [fst snd] in *.
  assert (H : held s (kinds ts)).
  { unfold scan, scan_from in Sc. destruct (has_prefix bom s).
    - destruct (source_chars _ _); [|discriminate]. apply lex_held in Sc. rewrite <- (firstn_skipn 3 s). apply held_skip. exact Sc.
    - destruct (source_chars _ _); [|discriminate]. apply lex_held in Sc. exact Sc. }
  destruct H as [L W]. rewrite Ek, kepts_app, Z in *. rewrite (proj1 spell_kept _ _ S). split; [lia|]. intros Le. specialize (W ltac:(lia)). rewrite Forall_app in W. destruct W as [W _].
  rewrite Forall_forall in *. intros v I. destruct (proj1 spell_literals _ _ S v I) as [k Hk]. exact (W _ Hk).
Qed.

(** * Values *)
Definition vret (v : value) : nat := returns (value_text v).
Definition operand_ret (o : operand) : nat :=
  match o with OType t => returns t | OAuxInt e | OAux e => returns (go_text e) | OArg v => vret v end.
Lemma str_returns t : (forall c, In c t -> c <> cr) -> returns t = 0.
Proof. intros H. unfold returns. induction t as [|c t IH]; [reflexivity|]. cbn [filter]. destruct (ch c cr) eqn:E; [apply ch_eq in E; destruct (H c); cbn; auto|]. apply IH. intros d I. apply H. right. exact I. Qed.
Lemma concat_returns (l : list text) : returns (List.concat l) = SpecSize.total (map returns l).
Proof. induction l as [|t l IH]; [reflexivity|]. cbn [List.concat map SpecSize.total fold_right]. rewrite returns_app, IH. reflexivity. Qed.
Ltac rt := repeat match goal with |- context[returns (str ?s)] => change (returns (str s)) with 0 end.

Lemma operands_ret l :
  SpecSize.total (map returns (types_of l)) + SpecSize.total (map (fun e => returns (go_text e)) (auxints_of l)) +
  SpecSize.total (map (fun e => returns (go_text e)) (auxs_of l)) + SpecSize.total (map vret (args_of l)) =
  SpecSize.total (map operand_ret l).
Proof.
  induction l as [|o l IH]; [reflexivity|].
  destruct o; cbn [types_of auxints_of auxs_of args_of flat_map app map SpecSize.total operand_ret] in *;
    fold (types_of l) (auxints_of l) (auxs_of l) (args_of l) in *; lia.
Qed.
Lemma type_ret l : returns (if_given (last l []) (fun t => str " <" ++ t ++ str ">")) <= SpecSize.total (map returns l).
Proof.
  destruct (last_in l []) as [->|H]; [cbn; lia|]. apply (total_in returns) in H.
  destruct (last l []) as [|c t]; [cbn; lia|]. unfold if_given. rewrite !returns_app. rt. lia.
Qed.
Lemma set_ret (a b : string) l : returns (str a) = 0 -> returns (str b) = 0 ->
  returns (if_set (last (map Some l) None) (fun e => str a ++ go_text e ++ str b)) <= SpecSize.total (map (fun e => returns (go_text e)) l).
Proof.
  intros A B. destruct (last_in (map Some l) None) as [E|H]; [rewrite E; cbn; lia|].
  apply in_map_iff in H. destruct H as [e [<- H]]. apply (total_in (fun e => returns (go_text e))) in H.
  cbn [if_set]. rewrite !returns_app, A, B. lia.
Qed.
Lemma assemble_ret b o l el tr :
  vret (SExp (assemble b o l el tr)) <= returns (if_given b (fun b => b ++ str ":")) + returns (opcode_text o) + SpecSize.total (map operand_ret l).
Proof.
  unfold vret, assemble. cbn [value_text s_binding s_op s_type s_auxint s_aux s_args s_ellipsis s_trailing].
  rewrite !returns_app. pose proof (type_ret (types_of l)) as T.
  pose proof (set_ret " [" "]" (auxints_of l) eq_refl eq_refl) as I. pose proof (set_ret " {" "}" (auxs_of l) eq_refl eq_refl) as A.
  pose proof (operands_ret l) as O.
  assert (R : returns (List.concat (map (fun a => str " " ++ value_text a) (args_of l))) = SpecSize.total (map vret (args_of l))).
  { rewrite concat_returns, map_map. reflexivity. }
  rewrite R. rt. destruct el, tr; cbn [when]; rt; try change (returns []) with 0; lia.
Qed.
Lemma values_ret :
  (forall t v, value_form ParseExpr t v -> vret v <= returns t) /\
  (forall t l, operands_form ParseExpr t l -> SpecSize.total (map operand_ret l) <= returns t) /\
  (forall t o, operand_form ParseExpr t o -> operand_ret o <= returns t).
Proof.
  apply (value_forms_ind ParseExpr (fun t v _ => vret v <= returns t) (fun t l _ => SpecSize.total (map operand_ret l) <= returns t) (fun t o _ => operand_ret o <= returns t)).
  - intros t v [t' e _ R|x I|]; unfold vret; cbn [value_text]; [apply reads_held; exact R|lia|cbn; lia].
  - intros b w o opst ops ell el trl tr w' B W O F IH E T W'. pose proof (assemble_ret b o ops el tr) as A. rewrite !returns_app. lia.
  - cbn. lia.
  - intros w t x rest xs W _ IHx _ IHr. cbn [map SpecSize.total]. rewrite !returns_app. lia.
  - intros t _ _. cbn [operand_ret]. rewrite !returns_app. lia.
  - intros t e _ _ R. apply reads_held in R. cbn [operand_ret]. rewrite !returns_app. lia.
  - intros t e _ _ R. apply reads_held in R. cbn [operand_ret]. rewrite !returns_app. lia.
  - intros t v _ IH. exact IH.
Qed.

(** * Conditions *)
Lemma piece_no_arrow c e : reads ParseExpr (trim_space (newlines_to_spaces c)) e -> (forall x y, c = x ++ str "=>" ++ y -> x = []) ->
  Forall (piece (trim_space (newlines_to_spaces c))) (literals e) -> Forall (fun v => ~ has_arrow v) (literals e).
Proof.
  intros R A Pc. pose proof (reads_ordered _ _ R) as O. apply ordered_literals in O. rewrite Forall_forall in *. intros v I (x & y & Ev).
  destruct (Pc v I) as (a & b & Em). destruct (O v I) as [k Hk].
  destruct (trim_space_trimmed (newlines_to_spaces c)) as (u & w & E & _). rewrite Em, Ev in E. rewrite <- !app_assoc in E. unfold newlines_to_spaces in E.
  assert (E' : map (fun c0 => if ascii_dec c0 nl then sp else c0) c = (u ++ a ++ x) ++ "="%char :: ">"%char :: y ++ b ++ w) by (rewrite <- !app_assoc; exact E). clear E.
  apply map_eq_app in E'. destruct E' as (c1 & c2 & -> & E1 & E2). apply map_cons_inv in E2. destruct E2 as (d1 & c3 & -> & D1 & E2). apply map_cons_inv in E2. destruct E2 as (d2 & c4 & -> & D2 & _).
  assert (d1 = "="%char) as -> by (destruct (ascii_dec d1 nl); [discriminate|assumption]). assert (d2 = ">"%char) as -> by (destruct (ascii_dec d2 nl); [discriminate|assumption]).
  specialize (A c1 c4 eq_refl). subst c1. cbn in E1. symmetry in E1. apply app_eq_nil in E1. destruct E1 as [_ E1]. apply app_eq_nil in E1. destruct E1 as [_ ->].
  cbn in Ev. destruct Hk as [[_ (d & t & Et & Hd)]|S].
  - rewrite Et in Ev. inversion Ev; subst. discriminate.
  - destruct k; cbn in S; try contradiction; [destruct S as (z & Ez & _)|destruct S as [(z & Ez & _)|(z & Ez & _)]]; rewrite Ez in Ev; discriminate.
Qed.
Lemma newlines_returns t : returns (newlines_to_spaces t) = returns t.
Proof. induction t as [|c t IH]; [reflexivity|]. cbn [newlines_to_spaces map]. rewrite returns_cons, (returns_cons c). fold (newlines_to_spaces t). rewrite IH. destruct (ascii_dec c nl); [subst|]; reflexivity. Qed.
Lemma trim_returns t : returns (trim_space t) <= returns t.
Proof. destruct (trim_space_trimmed t) as (a & b & E & _). rewrite E at 2. rewrite !returns_app. lia. Qed.
Definition free (c : option gexpr) : Prop := Forall (fun v => ~ has_arrow v) (flat_map literals (given c)).
Lemma cond_ret after t c : cond_form ParseExpr after t c ->
  returns (if_set c (fun e => str " && " ++ go_text e)) <= returns t /\ (returns t <= returns (if_set c (fun e => str " && " ++ go_text e)) -> free c).
Proof.
  intros [|w w' c' e b after' W W' N _ A _ _ R]; [split; [cbn; lia|intros _; constructor]|]. apply reads_cond_iff in R. cbn [if_set]. rewrite !returns_app. rt.
  pose proof (trim_returns (newlines_to_spaces c')) as T. rewrite newlines_returns in T. destruct (reads_held _ _ R) as [Le Wh]. split; [lia|]. intros G.
  unfold free. cbn [given flat_map]. rewrite app_nil_r. apply (piece_no_arrow c'); auto. apply Wh. lia.
Qed.
Lemma rule_ret after t r : rule_form ParseExpr after t r ->
  returns (rule_text r) <= returns t /\ (returns t <= returns (rule_text r) -> free (r_cond r)).
Proof.
  intros [m vm ct c w1 w2 bt b w3 res vr M C W1 W2 B W3 R _].
  apply (proj1 values_ret) in M, R. apply cond_ret in C. destruct C as [C F]. unfold vret in *.
  assert (Bl : returns (if_given b (fun b => str "@" ++ b ++ str " ")) <= returns bt).
  { destruct B as [|b' c0 after' Ne _ _ _]; [cbn; lia|]. destruct b' as [|x b']; [congruence|]. unfold if_given. rewrite !returns_app. rt. lia. }
  unfold rule_text. cbn [r_match r_cond r_block r_result]. rewrite !returns_app. rt. split; [lia|]. intros G. apply F. lia.
Qed.
Lemma source_ret t rs : source_form ParseExpr t rs ->
  returns (file_text (mkFile rs)) <= returns t /\ (returns t <= returns (file_text (mkFile rs)) -> Forall (fun r => free (r_cond r)) rs).
Proof.
  unfold file_text. cbn [f_rules]. induction 1 as [|w t w' rest r rs W W' R S [IH IF]]; [split; [cbn; lia|constructor]|].
  apply rule_ret in R. destruct R as [R F]. cbn [map List.concat]. rewrite !returns_app. change (returns [nl]) with 0. split; [lia|].
  intros G. constructor; [apply F; lia|apply IF; lia].
Qed.

(** The printed text of the rules cannot have lost any. *)
Lemma back_free fn rs t : Printer.Bytes (NFile (mkFile rs)) = Ok t -> Parse.Parse ParseExpr fn t = Ok (mkFile rs) ->
  Forall (fun r => Forall (fun v => ~ has_arrow v) (flat_map literals (given (r_cond r)))) rs.
Proof.
  intros B P. apply SynFile.parse_source in P. destruct P as [_ S]. cbn [f_rules] in S. apply source_ret in S. apply S.
  rewrite PrintFacts.Bytes_eq in B. destruct (node_bad _); inversion B. apply le_n.
Qed.
