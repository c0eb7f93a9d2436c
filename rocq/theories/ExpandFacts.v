(** Proofs about pass/alt.go. *)
From Verif Require Import Text GoAst Ast Expand SpecExpand.
From Coq Require Import Arith Bool Lia.
Open Scope res_scope.

Lemma all_values_Forall P l : all_values P l <-> Forall P l.
Proof.
  induction l as [|a l IH]; cbn; split; intros H; auto.
  - destruct H as [Ha Hl]. constructor; [exact Ha|apply IH; exact Hl].
  - inversion H; subst. split; [assumption|apply IH; assumption].
Qed.
Lemma proper_sexp s : proper_value (SExp s) <-> proper_op (s_op s) /\ Forall proper_value (s_args s).
Proof. cbn [proper_value]. rewrite <- all_values_Forall. reflexivity. Qed.
Lemma plain_sexp s : plain_value (SExp s) <-> plain_op (s_op s) /\ Forall plain_value (s_args s).
Proof. cbn [plain_value]. rewrite <- all_values_Forall. reflexivity. Qed.

(** Result of expanding something with groups [gs] whose instances are [f]. *)
Definition Uni (gs : list nat) (n : nat) : Prop :=
  (gs = [] /\ n = 1) \/ (gs <> [] /\ (forall g, In g gs -> g = n) /\ 2 <= n).
Definition Outcome {T} (gs : list nat) (f : nat -> T) (r : res (list T)) : Prop :=
  (exists n, Uni gs n /\ r = Ok (map f (seq 0 n))) \/
  (exists m n, In m gs /\ In n gs /\ m <> n /\ r = Err (clash m n)).

Lemma Uni_pos gs n : Uni gs n -> 1 <= n.
Proof. intros [[_ ->]|[_ [_ H]]]; lia. Qed.

Lemma Uni_arity gs n : Uni gs n -> n = arity gs /\ uniform gs.
Proof.
  intros [[-> ->]|[Hne [H _]]].
  - split; [reflexivity|]. intros m n [].
  - split.
    + destruct gs as [|g gs]; [congruence|]. symmetry. apply H. left; reflexivity.
    + intros a b Ha Hb. rewrite (H a Ha), (H b Hb). reflexivity.
Qed.

Lemma resolve_uni g0 g1 a b : Uni g0 a -> Uni g1 b ->
  (exists c, resolvecounts a b = Ok c /\ Uni (g0 ++ g1) c /\ (a = 1 \/ a = c) /\ (b = 1 \/ b = c)) \/
  (resolvecounts a b = Err (clash a b) /\ a <> b /\ In a g0 /\ In b g1).
Proof.
  intros Ha Hb. pose proof (Uni_pos _ _ Ha) as Pa. pose proof (Uni_pos _ _ Hb) as Pb.
  unfold resolvecounts.
  destruct (Nat.leb_spec a 0) as [|_]; [lia|]. destruct (Nat.leb_spec b 0) as [|_]; [lia|]. cbn [orb].
  destruct Ha as [[-> ->]|[Hna [Ha La]]].
  - left. destruct (Nat.ltb_spec 1 1) as [|_]; [lia|]. cbn [andb].
    exists b. destruct (Nat.ltb_spec b 1) as [|_]; [lia|]. auto.
  - destruct (Nat.ltb_spec 1 a) as [_|]; [|lia]. destruct Hb as [[-> ->]|[Hnb [Hb Lb]]].
    + left. destruct (Nat.ltb_spec 1 1) as [|_]; [lia|]. cbn [andb].
      exists a. rewrite app_nil_r. destruct (Nat.ltb_spec 1 a) as [_|]; [|lia].
      repeat split; auto. right. auto.
    + destruct (Nat.ltb_spec 1 b) as [_|]; [|lia]. cbn [andb].
      destruct (Nat.eqb_spec a b) as [->|Hab]; cbn [negb].
      * left. exists b. destruct (Nat.ltb_spec b b) as [|_]; [lia|].
        repeat split; auto. right. split; [destruct g0; cbn; congruence|]. split; [|exact Lb].
        intros g Hg. apply in_app_iff in Hg. destruct Hg; auto.
      * right. repeat split; auto.
        -- destruct g0 as [|g g0]; [congruence|]. rewrite <- (Ha g (or_introl eq_refl)). left; reflexivity.
        -- destruct g1 as [|g g1]; [congruence|]. rewrite <- (Hb g (or_introl eq_refl)). left; reflexivity.
Qed.

Lemma mapM_ok {A B} (f : A -> res B) (g : A -> B) l :
  (forall a, In a l -> f a = Ok (g a)) -> mapM f l = Ok (map g l).
Proof.
  induction l as [|a l IH]; intros H; cbn [mapM map]; [reflexivity|].
  rewrite (H a (or_introl eq_refl)). cbn [bind]. rewrite IH; [reflexivity|].
  intros b Hb. apply H. right; exact Hb.
Qed.

Lemma mapM_inv {A B} (f : A -> res B) l ys :
  mapM f l = Ok ys -> forall a, In a l -> exists y, f a = Ok y /\ In y ys.
Proof.
  revert ys. induction l as [|a l IH]; intros ys H x Hx; [destruct Hx|].
  cbn [mapM] in H. destruct (f a) as [y| |] eqn:Hf; cbn [bind] in H; try discriminate.
  destruct (mapM f l) as [ys'| |] eqn:Hm; cbn [bind] in H; try discriminate. injection H as <-.
  destruct Hx as [<-|Hx].
  - exists y. split; [exact Hf|left; reflexivity].
  - destruct (IH ys' eq_refl x Hx) as [z [Hz Hin]]. exists z. split; [exact Hz|right; exact Hin].
Qed.

(** Opcode parts. *)
Lemma countparts_spec ps : Forall proper_part ps -> forall gs0 a, Uni gs0 a ->
  (exists c, countparts a ps = Ok c /\ Uni (gs0 ++ flat_map part_groups ps) c) \/
  (exists m n, In m (gs0 ++ flat_map part_groups ps) /\ In n (gs0 ++ flat_map part_groups ps) /\
     m <> n /\ countparts a ps = Err (clash m n)).
Proof.
  induction ps as [|p ps IH]; intros Hp gs0 a Ha; cbn [countparts flat_map].
  - left. exists a. rewrite app_nil_r. auto.
  - inversion Hp as [|? ? Hpp Hps]; subst. destruct p as [c|alts|]; cbn [part_groups proper_part] in *; [|..].
    + cbn [app]. apply IH; assumption.
    + assert (Hb : Uni [List.length alts] (List.length alts)).
      { right. split; [discriminate|]. split; [|exact Hpp]. intros g [<-|[]]. reflexivity. }
      destruct (resolve_uni gs0 [List.length alts] a (List.length alts) Ha Hb)
        as [[c [-> [Hc _]]]|[-> [Hne [Hin1 Hin2]]]]; cbn [bind].
      * rewrite app_assoc. apply IH; assumption.
      * right. exists a, (List.length alts). repeat split; auto; apply in_app_iff; auto.
        right. left. reflexivity.
    + destruct Hpp.
Qed.

Lemma buildalt_spec i ps acc :
  Forall (fun p => match p with PAlt alts => i < List.length alts | PNilPart => False | _ => True end) ps ->
  buildalt i acc ps = Ok (acc ++ List.concat (map (part_inst i) ps)).
Proof.
  revert acc. induction ps as [|p ps IH]; intros acc H; cbn [buildalt map List.concat].
  - rewrite app_nil_r. reflexivity.
  - inversion H as [|? ? Hp Hps]; subst. destruct p as [c|alts|]; cbn [part_inst].
    + rewrite IH by assumption. rewrite app_assoc. reflexivity.
    + unfold index. rewrite (nth_error_nth' alts [] Hp). cbn [bind].
      rewrite IH by assumption. rewrite app_assoc. reflexivity.
    + destruct Hp.
Qed.

Lemma flat_map_in_groups alts ps : In (PAlt alts) ps -> In (List.length alts) (flat_map part_groups ps).
Proof. intros H. apply in_flat_map. exists (PAlt alts). split; [exact H|left; reflexivity]. Qed.

Definition op_text (o : op) : text := match o with Opcode c => c | _ => [] end.

Lemma op_inst_text o i : proper_op o -> op_inst i o = Opcode (op_text (op_inst i o)).
Proof. destruct o; cbn; auto. intros []. Qed.

Lemma expandop_outcome o : proper_op o ->
  Outcome (op_groups o) (fun i => op_text (op_inst i o)) (expandop o).
Proof.
  intros Hp. destruct o as [c|ps|]; cbn [expandop op_groups op_inst op_text] in *; [|..|destruct Hp].
  - left. exists 1. split; [left; auto|reflexivity].
  - destruct Hp as [Hps [alts Halts]]. unfold expandopcodeparts.
    destruct ps as [|p ps]; [destruct Halts|]. set (l := p :: ps) in *.
    assert (H0 : Uni [] 1) by (left; auto).
    destruct (countparts_spec l Hps [] 1 H0) as [[c [-> Hc]]|[m [n [Hm [Hn [Hmn ->]]]]]]; cbn [bind app] in *.
    + destruct Hc as [[Hnil _]|[Hne [Hall Hc2]]].
      { pose proof (flat_map_in_groups alts l Halts) as Hi. rewrite Hnil in Hi. destruct Hi. }
      left. exists c. split; [right; auto|].
      destruct (Nat.eqb_spec c 1) as [|_]; [lia|].
      apply mapM_ok. intros i Hi. apply in_seq in Hi. rewrite buildalt_spec; [reflexivity|].
      rewrite Forall_forall in *. intros q Hq. specialize (Hps q Hq). destruct q as [d|al|]; auto.
      rewrite (Hall _ (flat_map_in_groups al l Hq)). lia.
    + right. exists m, n. auto.
Qed.

(** Arguments. *)
Lemma expandargs_spec args : Forall (fun a => Outcome (value_groups a) (fun i => value_inst i a) (expandvalue a)) args ->
  forall gs0 n, Uni gs0 n ->
  (exists c cs, expandargs (fun a => expandvalue a) n args =
       Ok (c, map (fun '(a, k) => map (fun i => value_inst i a) (seq 0 k)) (combine args cs)) /\
     Uni (gs0 ++ flat_map value_groups args) c /\ (n = 1 \/ n = c) /\
     Forall2 (fun a k => k = 1 /\ value_groups a = [] \/ k = c) args cs) \/
  (exists p q, In p (gs0 ++ flat_map value_groups args) /\ In q (gs0 ++ flat_map value_groups args) /\
     p <> q /\ expandargs (fun a => expandvalue a) n args = Err (clash p q)).
Proof.
  induction args as [|a args IH]; intros Hf gs0 n Hn; cbn [expandargs flat_map].
  - left. exists n, []. rewrite app_nil_r. cbn. auto.
  - inversion Hf as [|? ? Ha Hargs]; subst.
    destruct Ha as [[k [Hk ->]]|[p [q [Hp [Hq [Hpq ->]]]]]]; cbn [bind].
    2: { right. exists p, q. repeat split; auto; apply in_app_iff; right; apply in_app_iff; auto. }
    rewrite map_length, seq_length.
    destruct (resolve_uni gs0 (value_groups a) n k Hn Hk) as [[c [-> [Hc [Hnc Hkc]]]]|[-> [Hne [Hin1 Hin2]]]]; cbn [bind].
    2: { right. exists n, k. repeat split; auto; apply in_app_iff; [left|right]; auto. apply in_app_iff; auto. }
    destruct (IH Hargs (gs0 ++ value_groups a) c Hc) as [[c' [cs [-> [Hc' [Hcc Hcs]]]]]|[p [q [Hp [Hq [Hpq ->]]]]]]; cbn [bind].
    + left. exists c', (k :: cs). cbn [combine map]. rewrite app_assoc. repeat split; auto.
      * destruct Hnc as [->| ->]; auto.
      * constructor; [|exact Hcs].
        destruct Hk as [[Hk1 Hk2]|[Hk1 [Hk2 Hk3]]]; [left; auto|right].
        destruct Hkc as [->| ->]; [lia|]. destruct Hcc as [->| ->]; [lia|reflexivity].
    + right. exists p, q. rewrite app_assoc. auto.
Qed.

Lemma nth_error_map_seq {A} (f : nat -> A) n i : i < n -> nth_error (map f (seq 0 n)) i = Some (f i).
Proof.
  intros H. apply map_nth_error. rewrite (nth_error_nth' _ 0); [|rewrite seq_length; exact H].
  rewrite seq_nth; [reflexivity|exact H].
Qed.

Lemma op_inst_no_groups o i : proper_op o -> op_groups o = [] -> op_inst i o = o.
Proof.
  destruct o as [c|ps|]; cbn; auto. intros [_ [alts H]] Hn.
  apply flat_map_in_groups in H. rewrite Hn in H. destruct H.
Qed.

Lemma value_inst_no_groups i v : proper_value v -> value_groups v = [] -> value_inst i v = v.
Proof.
  revert v. apply (value_ind' (fun v => proper_value v -> value_groups v = [] -> value_inst i v = v)); auto.
  intros s IH Hp Hg. apply proper_sexp in Hp. destruct Hp as [Ho Ha]. cbn [value_groups] in Hg.
  apply app_eq_nil in Hg. destruct Hg as [Hg1 Hg2]. cbn [value_inst].
  rewrite (op_inst_no_groups _ i Ho Hg1).
  replace (map (value_inst i) (s_args s)) with (s_args s); [destruct s; reflexivity|].
  clear Hg1. revert IH Ha Hg2. induction (s_args s) as [|a l IHl]; intros IH Ha Hg2; [reflexivity|].
  cbn [flat_map] in Hg2. apply app_eq_nil in Hg2. destruct Hg2 as [Hga Hgl].
  inversion IH; inversion Ha; subst. cbn [map]. f_equal; [symmetry; auto|apply IHl; auto].
Qed.

Lemma buildsexpr_ok s opcodes cs n i :
  proper_op (s_op s) -> Forall proper_value (s_args s) ->
  i < n -> opcodes = map (fun i => op_text (op_inst i (s_op s))) (seq 0 (List.length opcodes)) ->
  (List.length opcodes = 1 /\ op_groups (s_op s) = [] \/ List.length opcodes = n) ->
  Forall2 (fun a k => k = 1 /\ value_groups a = [] \/ k = n) (s_args s) cs ->
  buildsexpr s opcodes (map (fun '(a, k) => map (fun i => value_inst i a) (seq 0 k)) (combine (s_args s) cs)) i
    = Ok (value_inst i (SExp s)).
Proof.
  intros Hop Hargs Hi Heq Hlen Hcs. unfold buildsexpr.
  assert (H1 : index opcodes (idx i (List.length opcodes)) = Ok (op_text (op_inst i (s_op s)))).
  { unfold index, idx. destruct Hlen as [[Hl Hg]|Hl].
    - rewrite Hl. cbn [Nat.eqb]. rewrite Hl in Heq. rewrite Heq.
      cbn. rewrite !(op_inst_no_groups (s_op s) _ Hop Hg). reflexivity.
    - rewrite Hl in *. rewrite Heq.
      destruct (Nat.eqb_spec n 1) as [->|Hn1].
      + assert (i = 0) by lia. subst i. reflexivity.
      + rewrite nth_error_map_seq by exact Hi. reflexivity. }
  rewrite H1. cbn [bind].
  assert (H2 : mapM (fun alts => index alts (idx i (List.length alts)))
     (map (fun '(a, k) => map (fun i => value_inst i a) (seq 0 k)) (combine (s_args s) cs))
     = Ok (map (value_inst i) (s_args s))).
  { clear H1 Heq Hlen. revert Hargs. induction Hcs as [|a k l cs Hk Hcs IH]; intros Hargs; [reflexivity|].
    inversion Hargs; subst. cbn [combine map mapM]. rewrite map_length, seq_length.
    assert (Hx : index (map (fun i0 => value_inst i0 a) (seq 0 k)) (idx i k) = Ok (value_inst i a)).
    { unfold index, idx. destruct Hk as [[-> Hg]| ->].
      - cbn. rewrite !value_inst_no_groups by assumption. reflexivity.
      - destruct (Nat.eqb_spec n 1) as [->|Hn1].
        + assert (i = 0) by lia. subst i. reflexivity.
        + rewrite nth_error_map_seq by exact Hi. reflexivity. }
    rewrite Hx. cbn [bind]. rewrite IH by assumption. reflexivity. }
  rewrite H2. cbn [bind]. cbn [value_inst]. rewrite <- (op_inst_text _ i Hop). reflexivity.
Qed.

Lemma expandvalue_outcome v : proper_value v ->
  Outcome (value_groups v) (fun i => value_inst i v) (expandvalue v).
Proof.
  revert v. apply (value_ind' (fun v => proper_value v ->
    Outcome (value_groups v) (fun i => value_inst i v) (expandvalue v))).
  - intros s IH Hp. apply proper_sexp in Hp. destruct Hp as [Hop Hargs].
    cbn [expandvalue value_groups].
    destruct (expandop_outcome (s_op s) Hop) as [[k [Hk Hek]]|[m [n [Hm [Hn [Hmn ->]]]]]].
    2: { right. exists m, n. repeat split; auto; apply in_app_iff; auto. }
    rewrite Hek. cbn [bind]. rewrite map_length, seq_length.
    assert (Hf : Forall (fun a => Outcome (value_groups a) (fun i => value_inst i a) (expandvalue a)) (s_args s)).
    { rewrite Forall_forall in *. intros a Ha. apply IH; auto. }
    destruct (expandargs_spec (s_args s) Hf (op_groups (s_op s)) k Hk)
      as [[c [cs [-> [Hc [Hkc Hcs]]]]]|[p [q [Hp [Hq [Hpq ->]]]]]]; cbn [bind].
    2: { right. exists p, q. auto. }
    left. exists c. split; [exact Hc|].
    destruct (Nat.eqb_spec c 1) as [->|Hc1].
    + cbn [seq map]. destruct Hc as [[Hg _]|[_ [_ Hlt]]]; [|lia].
      rewrite (value_inst_no_groups 0 (SExp s)); [reflexivity|apply proper_sexp; auto|exact Hg].
    + apply mapM_ok. intros i Hi. apply in_seq in Hi.
      apply buildsexpr_ok with (n := c); auto; rewrite ?map_length, ?seq_length; auto; [lia|].
      destruct Hk as [[Hg ->]|[_ [_ Hk2]]]; [left; auto|right; lia].
  - intros e _. left. exists 1. split; [left; auto|reflexivity].
  - intros x _. left. exists 1. split; [left; auto|reflexivity].
  - intros [].
Qed.

Lemma rule_inst_no_groups i r : proper_rule r -> rule_groups r = [] -> rule_inst i r = r.
Proof.
  intros [Hm Hr] Hg. unfold rule_groups in Hg. apply app_eq_nil in Hg. destruct Hg as [H1 H2].
  unfold rule_inst. rewrite !value_inst_no_groups by assumption. destruct r; reflexivity.
Qed.

Lemma index_inst {n} v k i : Uni (value_groups v) k -> proper_value v -> (k = 1 \/ k = n) -> i < n ->
  index (map (fun i => value_inst i v) (seq 0 k)) (idx i k) = Ok (value_inst i v).
Proof.
  intros Hu Hp Hk Hi. unfold index, idx. destruct (Nat.eqb_spec k 1) as [->|Hk1].
  - destruct Hu as [[Hg _]|[_ [_ Hl]]]; [|lia].
    cbn. rewrite !value_inst_no_groups by assumption. reflexivity.
  - destruct Hk as [->| ->]; [congruence|]. rewrite nth_error_map_seq by exact Hi. reflexivity.
Qed.

Lemma expandrule_outcome r : proper_rule r ->
  Outcome (rule_groups r) (fun i => rule_inst i r) (expandrule r).
Proof.
  intros Hp. pose proof Hp as [Hm Hr]. unfold expandrule, rule_groups.
  destruct (expandvalue_outcome _ Hm) as [[a [Ha ->]]|[m [n [H1 [H2 [H3 ->]]]]]]; cbn [bind].
  2: { right. exists m, n. repeat split; auto; apply in_app_iff; auto. }
  destruct (expandvalue_outcome _ Hr) as [[b [Hb ->]]|[m [n [H1 [H2 [H3 ->]]]]]]; cbn [bind].
  2: { right. exists m, n. repeat split; auto; apply in_app_iff; auto. }
  rewrite !map_length, !seq_length.
  destruct (resolve_uni _ _ a b Ha Hb) as [[c [-> [Hc [Hac Hbc]]]]|[-> [Hne [Hi1 Hi2]]]]; cbn [bind].
  2: { right. exists a, b. repeat split; auto; apply in_app_iff; auto. }
  left. exists c. split; [exact Hc|].
  destruct (Nat.eqb_spec c 1) as [->|Hc1].
  - destruct Hc as [[Hg _]|[_ [_ Hl]]]; [|lia]. cbn [seq map].
    rewrite rule_inst_no_groups by assumption. reflexivity.
  - apply mapM_ok. intros i Hi. apply in_seq in Hi.
    rewrite (@index_inst c) by (auto; lia). cbn [bind].
    rewrite (@index_inst c) by (auto; lia). reflexivity.
Qed.

(** Success implies properness. *)
Lemma resolvecounts_ok a b c : resolvecounts a b = Ok c ->
  1 <= a /\ 1 <= b /\ 1 <= c /\ (a = 1 \/ a = c) /\ (b = 1 \/ b = c) /\ (c = a \/ c = b).
Proof.
  unfold resolvecounts. destruct (Nat.leb_spec a 0); [discriminate|]. destruct (Nat.leb_spec b 0); [discriminate|].
  cbn [orb]. destruct (Nat.ltb_spec 1 a); destruct (Nat.ltb_spec 1 b); destruct (Nat.eqb_spec a b);
    cbn [andb negb]; try discriminate; destruct (Nat.ltb_spec b a); intros H'; injection H' as <-; lia.
Qed.

Lemma countparts_ok ps : forall a c, countparts a ps = Ok c -> 1 <= a ->
  1 <= c /\ (a = 1 \/ a = c) /\
  (forall alts, In (PAlt alts) ps -> List.length alts = 1 \/ List.length alts = c) /\
  (c = a \/ exists alts, In (PAlt alts) ps /\ List.length alts = c).
Proof.
  induction ps as [|p ps IH]; intros a c H Ha; cbn [countparts] in H.
  - injection H as <-. repeat split; auto. intros alts [].
  - destruct p as [d|alts|].
    + destruct (IH _ _ H Ha) as [H1 [H2 [H3 H4]]]. repeat split; auto.
      * intros al [Hd|Hal]; [discriminate|auto].
      * destruct H4 as [->|[al [Hin Hl]]]; [left; reflexivity|right; exists al; split; [right|]; auto].
    + destruct (resolvecounts a (List.length alts)) as [b| |] eqn:Hr; cbn [bind] in H; try discriminate.
      apply resolvecounts_ok in Hr. destruct Hr as [_ [Hl [Hb [Hab [Hlb Hc]]]]].
      destruct (IH _ _ H Hb) as [H1 [H2 [H3 H4]]].
      assert (Hbc : b = 1 \/ b = c) by exact H2.
      repeat split; auto.
      * destruct Hab as [->| ->]; [left; reflexivity|exact Hbc].
      * intros al [Hd|Hal]; [injection Hd as <-|auto].
        destruct Hlb as [Hlb|Hlb]; [left; exact Hlb|rewrite Hlb; exact Hbc].
      * destruct H4 as [->|[al [Hin Hll]]].
        -- destruct Hc as [->|Hc]; [left; reflexivity|right; exists alts; split; [left; reflexivity|auto]].
        -- right; exists al; split; [right; exact Hin|exact Hll].
    + destruct (IH _ _ H Ha) as [H1 [H2 [H3 H4]]]. repeat split; auto.
      * intros al [Hd|Hal]; [discriminate|auto].
      * destruct H4 as [->|[al [Hin Hl]]]; [left; reflexivity|right; exists al; split; [right|]; auto].
Qed.

Lemma buildalt_ok i ps : forall acc t, buildalt i acc ps = Ok t ->
  Forall (fun p => match p with PAlt alts => i < List.length alts | PNilPart => False | _ => True end) ps.
Proof.
  induction ps as [|p ps IH]; intros acc t H; [constructor|]. cbn [buildalt] in H.
  destruct p as [c|alts|]; [constructor; eauto| |discriminate].
  unfold index in H. destruct (nth_error alts i) eqn:Hn; cbn [bind] in H; [|discriminate].
  constructor; [|eauto]. apply nth_error_Some. congruence.
Qed.

Lemma expandop_proper o l : expandop o = Ok l -> proper_op o /\ 1 <= List.length l.
Proof.
  destruct o as [c|ps|]; cbn [expandop proper_op]; intros H; [injection H as <-; cbn; auto| |discriminate].
  unfold expandopcodeparts in H. destruct ps as [|p0 ps0]; [discriminate|].
  set (ps := p0 :: ps0) in *. destruct (countparts 1 ps) as [n| |] eqn:Hc; cbn [bind] in H; try discriminate.
  destruct (Nat.eqb_spec n 1) as [|Hn1]; [discriminate|].
  destruct (countparts_ok ps 1 n Hc (le_n 1)) as [Hn [_ [Hal Hex]]].
  assert (Hin : In (n - 1) (seq 0 n)) by (apply in_seq; lia).
  destruct (mapM_inv _ _ _ H _ Hin) as [t [Ht Hint]].
  apply buildalt_ok in Ht. split; [split|].
  - rewrite Forall_forall in *. intros q Hq. specialize (Ht q Hq). destruct q as [c|alts|]; cbn; auto.
    destruct (Hal alts Hq); lia.
  - destruct Hex as [->|[alts [Ha _]]]; [congruence|]. eauto.
  - destruct l; [destruct Hint|cbn; lia].
Qed.

Lemma expandargs_proper args : Forall (fun a => forall l, expandvalue a = Ok l -> proper_value a) args ->
  forall n r, expandargs (fun a => expandvalue a) n args = Ok r -> Forall proper_value args.
Proof.
  induction args as [|a args IH]; intros Hf n r H; [constructor|]. inversion Hf; subst.
  cbn [expandargs] in H. destruct (expandvalue a) as [ea| |] eqn:Ha; cbn [bind] in H; try discriminate.
  destruct (resolvecounts n (List.length ea)) as [c| |]; cbn [bind] in H; try discriminate.
  destruct (expandargs (fun a => expandvalue a) c args) as [r'| |] eqn:Hr; cbn [bind] in H; try discriminate.
  constructor; eauto.
Qed.

Lemma expandvalue_proper v : forall l, expandvalue v = Ok l -> proper_value v.
Proof.
  revert v. apply (value_ind' (fun v => forall l, expandvalue v = Ok l -> proper_value v)); auto.
  - intros s IH l H. apply proper_sexp. cbn [expandvalue] in H.
    destruct (expandop (s_op s)) as [os| |] eqn:Ho; cbn [bind] in H; try discriminate.
    destruct (expandargs (fun a => expandvalue a) (List.length os) (s_args s)) as [r| |] eqn:Ha;
      cbn [bind] in H; try discriminate.
    split; [exact (proj1 (expandop_proper _ _ Ho))|exact (expandargs_proper _ IH _ _ Ha)].
  - cbn; auto.
  - cbn; auto.
  - discriminate.
Qed.

Lemma expandrule_proper r l : expandrule r = Ok l -> proper_rule r.
Proof.
  unfold expandrule. intros H.
  destruct (expandvalue (r_match r)) as [m| |] eqn:Hm; cbn [bind] in H; try discriminate.
  destruct (expandvalue (r_result r)) as [x| |] eqn:Hx; cbn [bind] in H; try discriminate.
  split; eapply expandvalue_proper; eauto.
Qed.

Lemma outcome_uniform {T} gs (f : nat -> T) r : Outcome gs f r -> uniform gs ->
  r = Ok (map f (seq 0 (arity gs))).
Proof.
  intros [[n [Hn ->]]|[m [n [Hm [Hn [Hmn _]]]]]] Hu; [|elim Hmn; apply Hu; assumption].
  rewrite (proj1 (Uni_arity _ _ Hn)). reflexivity.
Qed.

Theorem expandrule_iff r l :
  expandrule r = Ok l <-> proper_rule r /\ uniform (rule_groups r) /\ l = instances r.
Proof.
  split.
  - intros H. pose proof (expandrule_proper _ _ H) as Hp. split; [exact Hp|].
    destruct (expandrule_outcome r Hp) as [[n [Hn Hr]]|[m [n [_ [_ [_ Hr]]]]]]; [|congruence].
    destruct (Uni_arity _ _ Hn) as [-> Hu]. split; [exact Hu|]. unfold instances. congruence.
  - intros [Hp [Hu ->]]. apply (outcome_uniform _ _ _ (expandrule_outcome r Hp) Hu).
Qed.

Lemma expandrules_iff rs : forall l,
  expandrules rs = Ok l <->
  Forall (fun r => proper_rule r /\ uniform (rule_groups r)) rs /\ l = flat_map instances rs.
Proof.
  induction rs as [|r rs IH]; intros l; cbn [expandrules flat_map].
  - split; [intros H; injection H as <-; auto|intros [_ ->]; reflexivity].
  - split.
    + intros H. destruct (expandrule r) as [e| |] eqn:He; cbn [bind] in H; try discriminate.
      destruct (expandrules rs) as [es| |] eqn:Hes; cbn [bind] in H; try discriminate.
      injection H as <-. apply expandrule_iff in He. destruct He as [Hp [Hu ->]].
      destruct (proj1 (IH es) eq_refl) as [Hf ->]. split; [constructor; auto|reflexivity].
    + intros [Hf ->]. inversion Hf as [|? ? [Hp Hu] Hfs]; subst.
      rewrite (proj2 (expandrule_iff r _) (conj Hp (conj Hu eq_refl))). cbn [bind].
      rewrite (proj2 (IH _) (conj Hfs eq_refl)). reflexivity.
Qed.

Theorem ExpandAlternates_iff f f' :
  ExpandAlternates f = Ok (f', None) <->
  Forall (fun r => proper_rule r /\ uniform (rule_groups r)) (f_rules f) /\
  f_rules f' = flat_map instances (f_rules f).
Proof.
  unfold ExpandAlternates. split.
  - intros H. destruct (expandrules (f_rules f)) as [rs| |] eqn:Hr; try discriminate.
    injection H as <-. apply expandrules_iff in Hr. exact Hr.
  - intros [Hf He]. rewrite (proj2 (expandrules_iff _ _) (conj Hf eq_refl)). rewrite <- He. destruct f'; reflexivity.
Qed.

Lemma expand_unchanged f f' e : ExpandAlternates f = Ok (f', Some e) -> f' = f.
Proof. unfold ExpandAlternates. destruct (expandrules (f_rules f)); intros H; congruence. Qed.

Lemma expandrules_error rs e : Forall proper_rule rs -> expandrules rs = Err e ->
  exists pre r post m n, rs = pre ++ r :: post /\
    Forall (fun r => uniform (rule_groups r)) pre /\
    In m (rule_groups r) /\ In n (rule_groups r) /\ m <> n /\ e = clash m n.
Proof.
  induction rs as [|r rs IH]; intros Hp H; [discriminate|]. inversion Hp as [|? ? Hr Hrs]; subst.
  cbn [expandrules] in H.
  destruct (expandrule_outcome r Hr) as [[k [Hk Hek]]|[m [n [Hm [Hn [Hmn Hek]]]]]]; rewrite Hek in H; cbn [bind] in H.
  - destruct (expandrules rs) as [es|e'|] eqn:Hes; cbn [bind] in H; try discriminate. injection H as ->.
    destruct (IH Hrs eq_refl) as [pre [r' [post [m [n [-> [Hpre Hrest]]]]]]].
    exists (r :: pre), r', post, m, n. split; [reflexivity|]. split; [|exact Hrest].
    constructor; [|exact Hpre]. exact (proj2 (Uni_arity _ _ Hk)).
  - injection H as <-. exists [], r, rs, m, n. repeat split; auto.
Qed.

Lemma expandrules_no_panic rs m : Forall proper_rule rs -> expandrules rs <> Panic m.
Proof.
  induction rs as [|r rs IH]; intros Hp; [discriminate|]. inversion Hp as [|? ? Hr Hrs]; subst.
  cbn [expandrules]. destruct (expandrule_outcome r Hr) as [[k [Hk ->]]|[a [b [_ [_ [_ ->]]]]]]; cbn [bind]; [|discriminate].
  specialize (IH Hrs). destruct (expandrules rs); cbn [bind]; try discriminate. intros H; apply IH; exact H.
Qed.

Lemma ExpandAlternates_error_iff f : Forall proper_rule (f_rules f) ->
  (exists f' e, ExpandAlternates f = Ok (f', Some e)) <->
  (exists r m n, In r (f_rules f) /\ In m (rule_groups r) /\ In n (rule_groups r) /\ m <> n).
Proof.
  intros Hp. unfold ExpandAlternates. split.
  - intros [f' [e H]]. destruct (expandrules (f_rules f)) as [rs|e'|] eqn:Hr; try discriminate.
    destruct (expandrules_error _ _ Hp Hr) as [pre [r [post [m [n [Heq [_ [Hm [Hn [Hmn _]]]]]]]]]].
    exists r, m, n. repeat split; auto. rewrite Heq. apply in_app_iff. right; left; reflexivity.
  - intros [r [m [n [Hr [Hm [Hn Hmn]]]]]].
    destruct (expandrules (f_rules f)) as [rs|e'|msg] eqn:He.
    + apply expandrules_iff in He. destruct He as [Hf _]. rewrite Forall_forall in Hf.
      elim Hmn. apply (proj2 (Hf r Hr)); assumption.
    + exists f, e'. reflexivity.
    + elim (expandrules_no_panic _ _ Hp He).
Qed.


(** Facts about instances. *)
Lemma value_inst_plain i v : proper_value v -> plain_value (value_inst i v).
Proof.
  revert v. apply (value_ind' (fun v => proper_value v -> plain_value (value_inst i v))); auto.
  intros s IH Hp. apply proper_sexp in Hp. destruct Hp as [Ho Ha]. cbn [value_inst]. apply plain_sexp. cbn.
  split; [rewrite (op_inst_text _ i Ho); exact I|].
  rewrite Forall_forall in *. intros x Hx. apply in_map_iff in Hx. destruct Hx as [a [<- Hin]]. auto.
Qed.

Lemma rule_inst_plain i r : proper_rule r -> plain_rule (rule_inst i r).
Proof. intros [Hm Hr]. split; cbn; apply value_inst_plain; assumption. Qed.

Lemma value_inst_same i v : same_shape v (value_inst i v).
Proof.
  revert v. apply (value_ind' (fun v => same_shape v (value_inst i v))); try (constructor; fail).
  intros s IH. cbn [value_inst]. constructor; cbn; auto.
  induction IH; cbn; constructor; auto.
Qed.

Lemma plain_proper v : plain_value v -> proper_value v /\ value_groups v = [].
Proof.
  revert v. apply (value_ind' (fun v => plain_value v -> proper_value v /\ value_groups v = [])).
  - intros s IH Hp. apply plain_sexp in Hp. destruct Hp as [Ho Ha]. rewrite proper_sexp.
    cbn [value_groups]. destruct (s_op s); cbn in Ho; try destruct Ho. cbn.
    induction IH as [|a l Hal IHl IHH]; cbn; [repeat split; constructor|].
    inversion Ha; subst. destruct (IHH H2) as [[_ Hf] Hg]. destruct (Hal H1) as [Hpa Hga].
    rewrite Hga, Hg. repeat split; auto.
  - cbn; auto.
  - cbn; auto.
  - intros [].
Qed.

Lemma plain_rule_instances r : plain_rule r -> proper_rule r /\ uniform (rule_groups r) /\ instances r = [r].
Proof.
  intros [Hm Hr]. destruct (plain_proper _ Hm) as [Pm Gm]. destruct (plain_proper _ Hr) as [Pr Gr].
  assert (Hg : rule_groups r = []) by (unfold rule_groups; rewrite Gm, Gr; reflexivity).
  split; [split; assumption|]. rewrite Hg. split; [intros m n []|].
  unfold instances. rewrite Hg. cbn. rewrite rule_inst_no_groups; [reflexivity|split; assumption|exact Hg].
Qed.

Lemma expand_plain f f' : ExpandAlternates f = Ok (f', None) -> Forall plain_rule (f_rules f').
Proof.
  intros H. apply ExpandAlternates_iff in H. destruct H as [Hf ->].
  rewrite Forall_forall in *. intros r Hr. apply in_flat_map in Hr. destruct Hr as [r0 [Hr0 Hin]].
  apply in_map_iff in Hin. destruct Hin as [i [<- _]]. apply rule_inst_plain. exact (proj1 (Hf r0 Hr0)).
Qed.

Lemma expand_plain_id f : Forall plain_rule (f_rules f) -> ExpandAlternates f = Ok (f, None).
Proof.
  intros H. apply ExpandAlternates_iff. split.
  - rewrite Forall_forall in *. intros r Hr. destruct (plain_rule_instances r (H r Hr)) as [Hp [Hu _]]. auto.
  - induction H as [|r l Hr Hl IH]; cbn; [reflexivity|].
    rewrite (proj2 (proj2 (plain_rule_instances r Hr))), <- IH. reflexivity.
Qed.

Lemma expandrules_app a b :
  expandrules (a ++ b) = let* x := expandrules a in let* y := expandrules b in Ok (x ++ y).
Proof.
  induction a as [|r a IH]; cbn [expandrules app].
  - cbn [bind]. destruct (expandrules b); reflexivity.
  - destruct (expandrule r); cbn [bind]; [|reflexivity..]. rewrite IH.
    destruct (expandrules a); cbn [bind]; [|reflexivity..].
    destruct (expandrules b); cbn [bind]; [|reflexivity..]. rewrite app_assoc. reflexivity.
Qed.

(** Panic witness. *)
Lemma mapM_panic {A B} (f : A -> res B) l m : mapM f l = Panic m -> exists a, In a l /\ f a = Panic m.
Proof.
  induction l as [|a l IH]; cbn [mapM]; intros H; [discriminate|].
  destruct (f a) as [y| |m'] eqn:Hf; cbn [bind] in H; try discriminate.
  - destruct (mapM f l) as [ys| |m'] eqn:Hm; cbn [bind] in H; try discriminate. injection H as ->.
    destruct (IH eq_refl) as [b [Hb Hfb]]. exists b. split; [right; exact Hb|exact Hfb].
  - injection H as ->. exists a. split; [left; reflexivity|exact Hf].
Qed.

Lemma resolvecounts_no_panic a b m : resolvecounts a b <> Panic m.
Proof.
  unfold resolvecounts. destruct (_ || _); [discriminate|]. destruct (_ && _ && _); [discriminate|].
  destruct (_ <? _); discriminate.
Qed.

Lemma countparts_no_panic ps : forall a m, countparts a ps <> Panic m.
Proof.
  induction ps as [|p ps IH]; intros a m; cbn [countparts]; [discriminate|].
  destruct p; auto. pose proof (resolvecounts_no_panic a (List.length alts)) as Hr.
  destruct (resolvecounts a (List.length alts)) as [| |m']; cbn [bind]; [apply IH|discriminate|]. elim (Hr m'). reflexivity.
Qed.

Lemma buildalt_panic i ps : forall acc m, buildalt i acc ps = Panic m ->
  exists alts, In (PAlt alts) ps /\ List.length alts <= i.
Proof.
  induction ps as [|p ps IH]; intros acc m H; cbn [buildalt] in H; [discriminate|].
  destruct p as [c|alts|]; [| |discriminate].
  - destruct (IH _ _ H) as [al [Hin Hl]]. exists al. split; [right; exact Hin|exact Hl].
  - unfold index in H. destruct (nth_error alts i) as [t|] eqn:Hn; cbn [bind] in H.
    + destruct (IH _ _ H) as [al [Hin Hl]]. exists al. split; [right; exact Hin|exact Hl].
    + exists alts. split; [left; reflexivity|]. apply nth_error_None. exact Hn.
Qed.

Lemma expandop_panic o m : expandop o = Panic m -> lopsided o.
Proof.
  destruct o as [c|ps|]; cbn [expandop]; try discriminate. unfold expandopcodeparts.
  destruct ps as [|p0 ps0]; [discriminate|]. set (ps := p0 :: ps0). intros H.
  destruct (countparts 1 ps) as [n| |m'] eqn:Hc; cbn [bind] in H; [|discriminate|elim (countparts_no_panic ps 1 m' Hc)].
  destruct (Nat.eqb_spec n 1) as [|Hn1]; [discriminate|].
  destruct (mapM_panic _ _ _ H) as [i [Hi Hb]]. apply in_seq in Hi.
  apply buildalt_panic in Hb. destruct Hb as [alts [Hin Hl]].
  destruct (countparts_ok ps 1 n Hc (le_n 1)) as [Hn [_ [Hal Hex]]].
  destruct Hex as [->|[big [Hbig Hlb]]]; [congruence|].
  destruct (Hal alts Hin) as [H1|H1]; [|lia].
  destruct alts as [|x [|y alts]]; try discriminate.
  exists ps, x, big. repeat split; auto. lia.
Qed.

Lemma index_ok {A} (l : list A) i : i < List.length l -> exists x, index l i = Ok x.
Proof. intros H. unfold index. destruct (nth_error l i) eqn:E; [eauto|]. apply nth_error_None in E. lia. Qed.


Lemma mapM_length {A B} (f : A -> res B) l ys : mapM f l = Ok ys -> List.length ys = List.length l.
Proof.
  revert ys. induction l as [|a l IH]; intros ys H; cbn [mapM] in H; [injection H as <-; reflexivity|].
  destruct (f a); cbn [bind] in H; try discriminate. destruct (mapM f l); cbn [bind] in H; try discriminate.
  injection H as <-. cbn. f_equal. apply IH. reflexivity.
Qed.

Lemma expandargs_ok args : forall n c ex, expandargs (fun a => expandvalue a) n args = Ok (c, ex) -> 1 <= n ->
  1 <= c /\ (n = 1 \/ n = c) /\ Forall (fun l => List.length l = 1 \/ List.length l = c) ex.
Proof.
  induction args as [|a args IH]; intros n c ex H Hn; cbn [expandargs] in H.
  - injection H as <- <-. auto.
  - destruct (expandvalue a) as [ea| |]; cbn [bind] in H; try discriminate.
    destruct (resolvecounts n (List.length ea)) as [b| |] eqn:Hr; cbn [bind] in H; try discriminate.
    destruct (expandargs (fun a => expandvalue a) b args) as [[c' ex']| |] eqn:He; cbn [bind] in H; try discriminate.
    injection H as <- <-. apply resolvecounts_ok in Hr. destruct Hr as [_ [Hl [Hb [Hab [Hlb _]]]]].
    destruct (IH _ _ _ He Hb) as [H1 [H2 H3]]. split; [exact H1|]. split.
    + destruct Hab as [->| ->]; auto.
    + constructor; [|exact H3]. destruct Hlb as [Hlb|Hlb]; [left; exact Hlb|rewrite Hlb; exact H2].
Qed.

Lemma expandargs_panic args : Forall (fun a => forall m, expandvalue a = Panic m -> exists o, In o (value_ops a) /\ lopsided o) args ->
  forall n m, expandargs (fun a => expandvalue a) n args = Panic m ->
  exists o, In o (flat_map value_ops args) /\ lopsided o.
Proof.
  induction 1 as [|a args Ha Hargs IH]; intros n m H; cbn [expandargs] in H; [discriminate|].
  cbn [flat_map]. destruct (expandvalue a) as [ea| |m'] eqn:Hea; cbn [bind] in H; try discriminate.
  - pose proof (resolvecounts_no_panic n (List.length ea)) as Hnp.
    destruct (resolvecounts n (List.length ea)) as [b| |m']; cbn [bind] in H; [|discriminate|elim (Hnp m' eq_refl)].
    destruct (expandargs (fun a => expandvalue a) b args) as [[c ex]| |m'] eqn:He; cbn [bind] in H; try discriminate.
    destruct (IH _ _ He) as [o [Ho Hl]]. exists o. split; [apply in_app_iff; right; exact Ho|exact Hl].
  - destruct (Ha m' eq_refl) as [o [Ho Hl]]. exists o. split; [apply in_app_iff; left; exact Ho|exact Hl].
Qed.

Lemma idx_lt i n l : i < n -> (l = 1 \/ l = n) -> idx i l < l.
Proof. intros Hi H. unfold idx. destruct (Nat.eqb_spec l 1); lia. Qed.

Lemma expandvalue_panic v : forall m, expandvalue v = Panic m -> exists o, In o (value_ops v) /\ lopsided o.
Proof.
  revert v. apply (value_ind' (fun v => forall m, expandvalue v = Panic m -> exists o, In o (value_ops v) /\ lopsided o)).
  - intros s IH m H. cbn [expandvalue] in H. cbn [value_ops].
    destruct (expandop (s_op s)) as [os| |m'] eqn:Ho; cbn [bind] in H; try discriminate.
    2: { exists (s_op s). split; [left; reflexivity|eapply expandop_panic; exact Ho]. }
    destruct (expandargs (fun a => expandvalue a) (List.length os) (s_args s)) as [[c ex]| |m'] eqn:Ha;
      cbn [bind] in H; try discriminate.
    2: { destruct (expandargs_panic _ IH _ _ Ha) as [o [Hin Hl]]. exists o. split; [right; exact Hin|exact Hl]. }
    destruct (Nat.eqb_spec c 1); [discriminate|]. exfalso.
    destruct (expandop_proper _ _ Ho) as [_ Hlen].
    destruct (expandargs_ok _ _ _ _ Ha Hlen) as [Hc [Hoc Hex]].
    destruct (mapM_panic _ _ _ H) as [i [Hi Hb]]. apply in_seq in Hi. unfold buildsexpr in Hb.
    destruct (index_ok os (idx i (List.length os))) as [t Ht].
    { apply idx_lt with (n := c); [lia|exact Hoc]. }
    rewrite Ht in Hb. cbn [bind] in Hb.
    destruct (mapM (fun alts : list value => index alts (idx i (List.length alts))) ex) as [| |m'] eqn:Hm;
      cbn [bind] in Hb; try discriminate.
    destruct (mapM_panic _ _ _ Hm) as [l [Hl Hp]]. rewrite Forall_forall in Hex.
    destruct (index_ok l (idx i (List.length l))) as [x Hx].
    { apply idx_lt with (n := c); [lia|auto]. }
    congruence.
  - discriminate.
  - discriminate.
  - discriminate.
Qed.


Lemma expandrule_panic r m : expandrule r = Panic m -> exists o, In o (rule_ops r) /\ lopsided o.
Proof.
  unfold expandrule, rule_ops. intros H.
  destruct (expandvalue (r_match r)) as [ms| |m'] eqn:Hm; cbn [bind] in H; try discriminate.
  2: { destruct (expandvalue_panic _ _ Hm) as [o [Ho Hl]]. exists o. split; [apply in_app_iff; auto|exact Hl]. }
  destruct (expandvalue (r_result r)) as [xs| |m'] eqn:Hx; cbn [bind] in H; try discriminate.
  2: { destruct (expandvalue_panic _ _ Hx) as [o [Ho Hl]]. exists o. split; [apply in_app_iff; auto|exact Hl]. }
  pose proof (resolvecounts_no_panic (List.length ms) (List.length xs)) as Hnp.
  destruct (resolvecounts (List.length ms) (List.length xs)) as [c| |m'] eqn:Hr; cbn [bind] in H; [|discriminate|elim (Hnp m' eq_refl)].
  destruct (Nat.eqb_spec c 1); [discriminate|]. exfalso. apply resolvecounts_ok in Hr.
  destruct (mapM_panic _ _ _ H) as [i [Hi Hb]]. apply in_seq in Hi.
  destruct (index_ok ms (idx i (List.length ms))) as [y Hy]; [apply idx_lt with (n := c); lia|].
  rewrite Hy in Hb. cbn [bind] in Hb.
  destruct (index_ok xs (idx i (List.length xs))) as [z Hz]; [apply idx_lt with (n := c); lia|].
  rewrite Hz in Hb. discriminate.
Qed.

Lemma ExpandAlternates_panic f m : ExpandAlternates f = Panic m ->
  exists r o, In r (f_rules f) /\ In o (rule_ops r) /\ lopsided o.
Proof.
  unfold ExpandAlternates. intros H. destruct (expandrules (f_rules f)) as [| |m'] eqn:He; try discriminate.
  clear H. revert m' He. induction (f_rules f) as [|r rs IH]; intros m' He; cbn [expandrules] in He; [discriminate|].
  destruct (expandrule r) as [e| |m''] eqn:Hr; cbn [bind] in He; try discriminate.
  - destruct (expandrules rs) as [es| |m''] eqn:Hes; cbn [bind] in He; try discriminate.
    destruct (IH m'' eq_refl) as [r' [o [Hin [Ho Hl]]]]. exists r', o. split; [right; exact Hin|auto].
  - destruct (expandrule_panic r m'' Hr) as [o [Ho Hl]]. exists r, o. split; [left; reflexivity|auto].
Qed.
