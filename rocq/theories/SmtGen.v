(** What the generator computes: exact outcome on typable rules, and that nothing
    else is accepted. *)
From Verif Require Import Text GoAst Ast Printer SpecPrint PrintFacts Smt SpecSmt.
From Coq Require Import Arith Bool Lia.
Open Scope res_scope.

Definition wkind (w : width) : bkind := match w with W8 => KInt8 | W16 => KInt16 | W32 => KInt32 | W64 => KInt64 end.
Definition wukind (w : width) : bkind := match w with W8 => KUint8 | W16 => KUint16 | W32 => KUint32 | W64 => KUint64 end.
Definition gt (t : ty) : gtype := match t with TyBool => TBasic KBool | TyInt w => TBasic (wkind w) end.

Lemma gt_inj a b : gt a = gt b -> a = b.
Proof. destruct a as [|[]], b as [|[]]; cbn; congruence. Qed.
Lemma identical_gt a b : identical (gt a) (gt b) = true <-> a = b.
Proof.
  unfold identical. destruct (gtype_eq_dec (gt a) (gt b)) as [E|N]; split; intros; try congruence.
  - apply gt_inj; exact E.
Qed.
Lemma identical_refl t : identical t t = true.
Proof. unfold identical. destruct (gtype_eq_dec t t); congruence. Qed.

Definition fmt (o : operator) : text :=
  match o with
  | IntOp Add _ => str "(bvadd %s %s)" | IntOp Sub _ => str "(bvsub %s %s)"
  | IntOp And _ => str "(bvand %s %s)" | IntOp Or _ => str "(bvor %s %s)"
  | IntOp Xor _ => str "(bvxor %s %s)" | IntOp Neg _ => str "(bvneg %s)"
  | IntOp Com _ => str "(bvnot %s)" | BoolOp AndB => str "(and %s %s)"
  | BoolOp OrB => str "(or %s %s)" | BoolOp EqB => str "(= %s %s)"
  | BoolOp NeqB => str "(not (= %s %s))" | BoolOp NotB => str "(not %s)"
  end.
Definition sigs (o : operator) : list signature :=
  match o with
  | IntOp (Neg | Com) w => int_sigs unary (wkind w) (wukind w)
  | IntOp _ w => int_sigs binary (wkind w) (wukind w)
  | BoolOp NotB => bool_sig unary
  | BoolOp _ => bool_sig binary
  end.
Definition simple_of (o : operator) : simple := {| op_arity := 0; op_sigs := sigs o; op_format := fmt o |}.

Lemma operations_eq : operations = map (fun o => (opcode_of o, simple_of o)) operators.
Proof. reflexivity. Qed.

Lemma operator_of_opcode o : operator_of (opcode_of o) = Some o.
Proof. destruct o as [[] []|[]]; reflexivity. Qed.
Lemma opcode_inj o o' : opcode_of o = opcode_of o' -> o = o'.
Proof. intros E. apply (f_equal operator_of) in E. rewrite !operator_of_opcode in E. congruence. Qed.
Lemma operator_of_some c o : operator_of c = Some o -> c = opcode_of o.
Proof.
  unfold operator_of. intros E. apply find_some in E. destruct E as [_ E].
  apply text_eqb_eq in E. congruence.
Qed.
Lemma operators_all o : In o operators.
Proof. unfold operator_of. pose proof (operator_of_opcode o) as E. apply find_some in E. apply E. Qed.

Lemma lookup_opcode o : lookup_op operations (opcode_of o) = Some (simple_of o).
Proof. destruct o as [[] []|[]]; reflexivity. Qed.
Lemma lookup_some c s : lookup_op operations c = Some s -> exists o, c = opcode_of o /\ s = simple_of o.
Proof.
  unfold lookup_op. destruct (find _ _) as [[k s']|] eqn:E; [|discriminate]. cbn. intros X; inversion X; subst s'.
  apply find_some in E. destruct E as [Hin E]. cbn in E. apply text_eqb_eq in E. subst k.
  apply in_rev in Hin. rewrite operations_eq in Hin. apply in_map_iff in Hin.
  destruct Hin as [o [Ho _]]. inversion Ho. eauto.
Qed.

Lemma params_none o : op_params (simple_of o) None = Ok (map (fun t => Some (gt t)) (params o)).
Proof. destruct o as [[] []|[]]; reflexivity. Qed.
Lemma params_some o : op_params (simple_of o) (Some (gt (result o))) = Ok (map (fun t => Some (gt t)) (params o)).
Proof. destruct o as [[] []|[]]; reflexivity. Qed.
Lemma params_some_inv o t ps : op_params (simple_of o) (Some (gt t)) = Ok ps -> t = result o.
Proof. destruct o as [[] []|[]], t as [|[]]; intros E; try discriminate; reflexivity. Qed.

Lemma evaluate_typed o es :
  List.length es = List.length (params o) ->
  op_evaluate (simple_of o) (map (fun '(e, t) => {| v_expr := e; v_type := gt t |}) (combine es (params o))) =
  Ok {| v_expr := sprintf (fmt o) es; v_type := gt (result o) |}.
Proof.
  destruct o as [[] []|[]]; cbn [params List.length]; intros L;
    destruct es as [|e1 [|e2 [|]]]; try discriminate; reflexivity.
Qed.

(** The script's text for a value. *)
Fixpoint vexpr (v : value) : text :=
  match v with
  | Var x => x
  | SExp s =>
      match s_op s with
      | Opcode c => match operator_of c with Some o => sprintf (fmt o) (map vexpr (s_args s)) | None => [] end
      | _ => []
      end
  | _ => []
  end.

Definition sort_text (t : ty) : text :=
  match t with
  | TyBool => str "Bool"
  | TyInt W8 => str "(_ BitVec 8)" | TyInt W16 => str "(_ BitVec 16)"
  | TyInt W32 => str "(_ BitVec 32)" | TyInt W64 => str "(_ BitVec 64)"
  end.
Lemma typesort_gt t : typesort (gt t) = Ok (sort_text t).
Proof. destruct t as [|[]]; reflexivity. Qed.

Definition decl_line (d : text * ty) : text :=
  str "(declare-const " ++ fst d ++ str " " ++ sort_text (snd d) ++ str ")" ++ [nl].
Definition sv (e : text) (t : ty) : svalue := {| v_expr := e; v_type := gt t |}.
Definition Gst (pre : text) (ds : list (text * ty)) : gen :=
  {| g_out := pre ++ List.concat (map decl_line ds);
     g_vars := rev (map (fun d => (fst d, sv (fst d) (snd d))) ds) |}.

Definition names (ds : list (text * ty)) : list text := map fst ds.
Definition seen (x : text) (l : list text) : bool := existsb (text_eqb x) l.
Lemma seen_in x l : seen x l = true <-> In x l.
Proof.
  unfold seen. rewrite existsb_exists. split.
  - intros [y [Hy E]]. apply text_eqb_eq in E. congruence.
  - intros Hx. exists x. split; [exact Hx|apply text_eqb_refl].
Qed.

Lemma lookup_gst pre ds x :
  (exists t, lookup_var (Gst pre ds) x = Some (sv x t) /\ In (x, t) ds) \/
  (lookup_var (Gst pre ds) x = None /\ ~ In x (names ds)).
Proof.
  unfold lookup_var, Gst. cbn [g_vars].
  destruct (find _ _) as [[k s]|] eqn:E.
  - left. apply find_some in E. destruct E as [Hin E]. apply text_eqb_eq in E. cbn in E. subst k.
    apply in_rev in Hin. apply in_map_iff in Hin. destruct Hin as [[y t] [Hd Hin]]. inversion Hd; subst.
    exists t. auto.
  - right. split; [reflexivity|]. intros Hin. apply in_map_iff in Hin. destruct Hin as [[y t] [<- Hin]].
    eapply find_none in E.
    2: { apply in_rev. rewrite rev_involutive. apply in_map_iff. exists (y, t). split; [reflexivity|exact Hin]. }
    cbn in E. rewrite text_eqb_refl in E. discriminate.
Qed.

Definition agree (G : text -> ty) (ds : list (text * ty)) : Prop := forall x t, In (x, t) ds -> G x = t.

Lemma variable_new pre ds x t : ~ In x (names ds) ->
  g_variable x (Some (gt t)) (Gst pre ds) = Ok (sv x t, Gst pre (ds ++ [(x, t)])).
Proof.
  intros Hx. unfold g_variable. destruct (lookup_gst pre ds x) as [[t' [_ Hin]]|[E _]].
  - elim Hx. apply in_map_iff. exists (x, t'). auto.
  - rewrite E, typesort_gt. unfold Gst, g_printf. cbn [g_out g_vars].
    rewrite !map_app, concat_app, rev_app_distr. cbn [map List.concat rev app].
    rewrite app_nil_r, <- app_assoc. reflexivity.
Qed.

Lemma variable_inv pre ds x t r g' : g_variable x (Some (gt t)) (Gst pre ds) = Ok (r, g') ->
  r = sv x t /\
  ((In (x, t) ds /\ g' = Gst pre ds) \/ (~ In x (names ds) /\ g' = Gst pre (ds ++ [(x, t)]))).
Proof.
  intros E. destruct (lookup_gst pre ds x) as [[t' [L Hin]]|[L Hn]].
  - unfold g_variable in E. rewrite L in E. cbn [v_type sv] in E.
    destruct (identical (gt t') (gt t)) eqn:I; [|discriminate]. apply identical_gt in I. subst t'.
    inversion E; subst. auto.
  - rewrite variable_new in E by exact Hn. inversion E; subst. auto.
Qed.

(** Adding the variables [xs], typed by G, to the declarations [ds]. *)
Fixpoint add_vars (G : text -> ty) (ds : list (text * ty)) (xs : list text) : list (text * ty) :=
  match xs with
  | [] => ds
  | x :: xs' => add_vars G (if seen x (names ds) then ds else ds ++ [(x, G x)]) xs'
  end.
Lemma add_vars_app G ds a b : add_vars G ds (a ++ b) = add_vars G (add_vars G ds a) b.
Proof. revert ds. induction a as [|x a IH]; intros ds; cbn; auto. Qed.
Lemma add_vars_agree G xs : forall ds, agree G ds -> agree G (add_vars G ds xs).
Proof.
  induction xs as [|x xs IH]; intros ds Ha; cbn; [exact Ha|]. apply IH.
  destruct (seen x (names ds)); [exact Ha|]. intros y t Hin. apply in_app_iff in Hin.
  destruct Hin as [Hin|[E|[]]]; [auto|congruence].
Qed.
Lemma firsts_ext a : forall s s', (forall x, In x s <-> In x s') -> firsts s a = firsts s' a.
Proof.
  induction a as [|x a IH]; intros s s' E; [reflexivity|]. cbn [firsts]. fold (seen x s) (seen x s').
  assert (seen x s = seen x s') as ->.
  { apply eq_iff_eq_true. rewrite !seen_in. apply E. }
  destruct (seen x s'); [apply IH; exact E|]. f_equal. apply IH. intros y. cbn. rewrite E. tauto.
Qed.
Lemma add_vars_firsts G xs : forall ds, add_vars G ds xs = ds ++ map (fun x => (x, G x)) (firsts (names ds) xs).
Proof.
  induction xs as [|x xs IH]; intros ds; cbn [add_vars firsts map]; [rewrite app_nil_r; reflexivity|].
  fold (seen x (names ds)). destruct (seen x (names ds)); rewrite IH; [reflexivity|].
  rewrite <- app_assoc. cbn [app map]. do 3 f_equal. apply firsts_ext. intros y. unfold names.
  rewrite map_app. rewrite in_app_iff. cbn. tauto.
Qed.

Lemma wrap_ok {A} p (a : A) : wrap p (Ok a) = Ok a. Proof. reflexivity. Qed.

Lemma precheck_typed s o : bare s -> s_op s = Opcode (opcode_of o) ->
  g_precheck s = Ok (opcode_of o, simple_of o).
Proof.
  intros (B & T & AI & A & E & R) O. unfold g_precheck. rewrite B, T, AI, A, E, R, O. cbn.
  rewrite lookup_opcode. reflexivity.
Qed.
Lemma precheck_inv s c k : g_precheck s = Ok (c, k) ->
  bare s /\ exists o, s_op s = Opcode (opcode_of o) /\ c = opcode_of o /\ k = simple_of o.
Proof.
  unfold g_precheck, bare. intros E.
  destruct (s_binding s); cbn [negb] in E; [|discriminate]. destruct (s_type s); cbn [negb] in E; [|discriminate].
  destruct (s_auxint s); [discriminate|]. destruct (s_aux s); [discriminate|].
  destruct (s_ellipsis s); [discriminate|]. destruct (s_trailing s); [discriminate|].
  destruct (s_op s) as [c'| |]; try discriminate.
  destruct (lookup_op operations c') as [k'|] eqn:L; [|discriminate].
  inversion E; subst. apply lookup_some in L. destruct L as [o [-> ->]]. repeat split; eauto.
Qed.

Lemma args_typed G c args ts :
  Forall2 (fun a t => forall pre ds, agree G ds ->
     g_eval a (Some (gt t)) (Gst pre ds) = Ok (sv (vexpr a) t, Gst pre (add_vars G ds (value_vars a)))) args ts ->
  forall i pre ds, agree G ds ->
  g_args c (fun a => g_eval a) i args (map (fun t => Some (gt t)) ts) (Gst pre ds) =
  Ok (map (fun '(e, t) => sv e t) (combine (map vexpr args) ts), Gst pre (add_vars G ds (flat_map value_vars args))).
Proof.
  induction 1 as [|a t args ts Ha _ IH]; intros i pre ds Hd; cbn [g_args map combine flat_map]; [reflexivity|].
  rewrite Ha by exact Hd. cbn [wrap bind]. rewrite IH by (apply add_vars_agree; exact Hd).
  cbn [bind]. rewrite add_vars_app. reflexivity.
Qed.

Lemma typed_ind' (G : text -> ty) (P : value -> ty -> Prop) :
  (forall x, P (Var x) (G x)) ->
  (forall s o, bare s -> s_op s = Opcode (opcode_of o) -> Forall2 (typed G) (s_args s) (params o) ->
     Forall2 P (s_args s) (params o) -> P (SExp s) (result o)) ->
  forall v t, typed G v t -> P v t.
Proof.
  intros HV HO. fix IH 3. intros v t [x|s o B O F]; [apply HV|]. apply HO; try assumption.
  clear B O. induction F; constructor; auto.
Qed.

Lemma sexp_typed G s o T : bare s -> s_op s = Opcode (opcode_of o) ->
  Forall2 (typed G) (s_args s) (params o) ->
  Forall2 (fun a t => forall pre ds, agree G ds ->
     g_eval a (Some (gt t)) (Gst pre ds) = Ok (sv (vexpr a) t, Gst pre (add_vars G ds (value_vars a)))) (s_args s) (params o) ->
  T = None \/ T = Some (gt (result o)) ->
  forall pre ds, agree G ds ->
  g_eval (SExp s) T (Gst pre ds) =
  Ok (sv (vexpr (SExp s)) (result o), Gst pre (add_vars G ds (value_vars (SExp s)))).
Proof.
  intros B O F IH HT pre ds Hd. cbn [g_eval].
  rewrite (precheck_typed s o B O). cbn [bind].
  assert (op_params (simple_of o) T = Ok (map (fun t => Some (gt t)) (params o))) as ->
    by (destruct HT as [->| ->]; [apply params_none|apply params_some]).
  cbn [wrap bind]. assert (L : List.length (s_args s) = List.length (params o)).
  { clear -F. induction F; cbn; congruence. }
  rewrite map_length, L, Nat.eqb_refl. cbn [negb].
  rewrite (args_typed G (opcode_of o) (s_args s) (params o) IH) by exact Hd. cbn [bind].
  rewrite evaluate_typed by (rewrite map_length; exact L). cbn [wrap bind].
  cbn [vexpr value_vars]. rewrite O, operator_of_opcode. reflexivity.
Qed.

Lemma eval_typed G v t : typed G v t -> forall pre ds, agree G ds ->
  g_eval v (Some (gt t)) (Gst pre ds) = Ok (sv (vexpr v) t, Gst pre (add_vars G ds (value_vars v))).
Proof.
  revert v t. apply (typed_ind' G (fun v t => forall pre ds, agree G ds ->
    g_eval v (Some (gt t)) (Gst pre ds) = Ok (sv (vexpr v) t, Gst pre (add_vars G ds (value_vars v))))).
  - intros x pre ds Hd. cbn [g_eval vexpr value_vars add_vars].
    destruct (seen x (names ds)) eqn:S.
    + apply seen_in in S. destruct (lookup_gst pre ds x) as [[t [L Hin]]|[_ N]]; [|contradiction].
      unfold g_variable. rewrite L. rewrite (Hd x t Hin). cbn [v_type sv]. rewrite identical_refl. reflexivity.
    + apply variable_new. rewrite <- seen_in. congruence.
  - intros s o B O F IH pre ds Hd. apply (sexp_typed G s o); auto.
Qed.

(** Conversely. *)
Definition ext (ds ds' : list (text * ty)) : Prop :=
  (exists more, ds' = ds ++ more) /\ (NoDup (names ds) -> NoDup (names ds')).
Lemma ext_refl ds : ext ds ds.
Proof. split; [exists []; rewrite app_nil_r; reflexivity|auto]. Qed.
Lemma ext_trans a b c : ext a b -> ext b c -> ext a c.
Proof.
  intros [[m ->] H1] [[n ->] H2]. split; [|auto]. exists (m ++ n). rewrite app_assoc. reflexivity.
Qed.
Lemma ext_agree G a b : ext a b -> agree G b -> agree G a.
Proof. intros [[m ->] _] H x t Hin. apply H. apply in_app_iff. auto. Qed.
Lemma NoDup_snoc {A} (l : list A) x : NoDup l -> ~ In x l -> NoDup (l ++ [x]).
Proof.
  intros Hl Hx. induction Hl as [|y l Hy _ IH]; cbn.
  - repeat constructor. intros [].
  - constructor.
    + rewrite in_app_iff. cbn. intros [H|[H|[]]]; [contradiction|]. subst. apply Hx. left; reflexivity.
    + apply IH. intros H. apply Hx. right; exact H.
Qed.
Lemma ext_snoc ds x t : ~ In x (names ds) -> ext ds (ds ++ [(x, t)]).
Proof.
  intros Hx. split; [eexists; reflexivity|]. intros Hn. unfold names. rewrite map_app. apply NoDup_snoc; assumption.
Qed.

Definition sound_at (v : value) (t : ty) : Prop := forall pre ds r g',
  g_eval v (Some (gt t)) (Gst pre ds) = Ok (r, g') ->
  v_type r = gt t /\ exists ds', g' = Gst pre ds' /\ ext ds ds' /\ forall G, agree G ds' -> typed G v t.

Lemma args_sound c args : Forall (fun a => forall t, sound_at a t) args ->
  forall ts i pre ds rs g', List.length args = List.length ts ->
  g_args c (fun a => g_eval a) i args (map (fun t => Some (gt t)) ts) (Gst pre ds) = Ok (rs, g') ->
  map v_type rs = map gt ts /\
  exists ds', g' = Gst pre ds' /\ ext ds ds' /\ forall G, agree G ds' -> Forall2 (typed G) args ts.
Proof.
  induction 1 as [|a args Ha _ IH]; intros ts i pre ds rs g' L E; destruct ts as [|t ts]; try discriminate.
  - cbn in E. inversion E; subst. split; [reflexivity|]. exists ds. split; [reflexivity|].
    split; [apply ext_refl|]. constructor.
  - cbn [g_args map] in E.
    destruct (g_eval a (Some (gt t)) (Gst pre ds)) as [[r g1]| |] eqn:Ea; cbn [wrap bind] in E; try discriminate.
    destruct (Ha t pre ds r g1 Ea) as [Tr [ds1 [-> [X1 T1]]]].
    destruct (g_args c (fun a => g_eval a) (S i) args (map (fun t => Some (gt t)) ts) (Gst pre ds1)) as [[rs' g2]| |] eqn:Er;
      cbn [bind] in E; try discriminate.
    inversion E; subst. cbn in L.
    destruct (IH ts (S i) pre ds1 rs' g' ltac:(lia) Er) as [Ts [ds2 [-> [X2 T2]]]].
    split; [cbn; congruence|]. exists ds2. split; [reflexivity|]. split; [eapply ext_trans; eauto|].
    intros G HG. constructor; [|auto]. apply T1. eapply ext_agree; eauto.
Qed.

Lemma evaluate_type o args r : map v_type args = map gt (params o) ->
  op_evaluate (simple_of o) args = Ok r -> v_type r = gt (result o).
Proof.
  intros Hm E.
  assert (Hx : args = map (fun '(e, t) => sv e t) (combine (map v_expr args) (params o))).
  { revert Hm. generalize (params o) as ps. clear E. induction args as [|[e t] args IH]; intros [|p ps] Hm; try discriminate; [reflexivity|].
    cbn in Hm. inversion Hm; subst. cbn. unfold sv at 1. f_equal. apply IH. assumption. }
  rewrite Hx in E. unfold sv in E. rewrite evaluate_typed in E; [inversion E; reflexivity|].
  apply (f_equal (@List.length _)) in Hm. rewrite !map_length in *. exact Hm.
Qed.

Lemma sexp_sound s T : Forall (fun a => forall t, sound_at a t) (s_args s) ->
  T = None \/ (exists t, T = Some (gt t)) ->
  forall pre ds r g', g_eval (SExp s) T (Gst pre ds) = Ok (r, g') ->
  exists o ds', (T = None \/ T = Some (gt (result o))) /\ v_type r = gt (result o) /\ g' = Gst pre ds' /\ ext ds ds' /\
    forall G, agree G ds' -> bare s /\ s_op s = Opcode (opcode_of o) /\ Forall2 (typed G) (s_args s) (params o).
Proof.
  intros IH HT pre ds r g' E. cbn [g_eval] in E.
  destruct (g_precheck s) as [[c k]| |] eqn:P; cbn [bind] in E; try discriminate.
  apply precheck_inv in P. destruct P as [B [o [O [-> ->]]]].
  destruct (op_params (simple_of o) T) as [ps| |] eqn:Q; cbn [wrap bind] in E; try discriminate.
  assert (HT' : T = None \/ T = Some (gt (result o))).
  { destruct HT as [->|[t ->]]; [auto|]. right. rewrite (params_some_inv o t ps Q). reflexivity. }
  assert (ps = map (fun t => Some (gt t)) (params o)) as ->.
  { destruct HT' as [->| ->]; [rewrite params_none in Q|rewrite params_some in Q]; congruence. }
  rewrite map_length in E. destruct (Nat.eqb_spec (List.length (params o)) (List.length (s_args s))) as [L|]; cbn [negb] in E; [|discriminate].
  destruct (g_args _ _ _ _ _ _) as [[args g1]| |] eqn:A; cbn [bind] in E; try discriminate.
  destruct (args_sound _ _ IH _ _ _ _ _ _ (eq_sym L) A) as [Ts [ds' [-> [X T1]]]].
  destruct (op_evaluate (simple_of o) args) as [r'| |] eqn:V; cbn [wrap bind] in E; try discriminate.
  inversion E; subst. exists o, ds'. split; [exact HT'|]. split; [eapply evaluate_type; eauto|].
  split; [reflexivity|]. split; [exact X|]. intros G HG. auto.
Qed.

Lemma eval_sound v : forall t, sound_at v t.
Proof.
  induction v as [s IH|e|x|] using value_ind'; intros t pre ds r g' E.
  - destruct (sexp_sound s (Some (gt t)) IH ltac:(right; eauto) pre ds r g' E) as [o [ds' [HT [Tr [Hg [X T1]]]]]].
    destruct HT as [|HT]; [discriminate|]. inversion HT as [HT']. apply gt_inj in HT'. subst t.
    split; [exact Tr|]. exists ds'. split; [exact Hg|]. split; [exact X|]. intros G HG.
    destruct (T1 G HG) as [B [O F]]. constructor; assumption.
  - discriminate.
  - cbn [g_eval] in E. apply variable_inv in E. destruct E as [-> [[Hin ->]|[Hn ->]]].
    + split; [reflexivity|]. exists ds. split; [reflexivity|]. split; [apply ext_refl|].
      intros G HG. rewrite <- (HG x t Hin). constructor.
    + split; [reflexivity|]. eexists. split; [reflexivity|]. split; [apply ext_snoc; exact Hn|].
      intros G HG. rewrite <- (HG x t); [constructor|]. apply in_app_iff. right; left; reflexivity.
  - discriminate.
Qed.

(** Rules. *)
Definition header : text := str "(set-info :smt-lib-version 2.6)" ++ [nl] ++ str "(set-logic QF_BV)" ++ [nl].
Definition comment_block (t : text) : text := str "; " ++ comment_lines t ++ [nl].
Definition footer (m x : text) : text :=
  str "(assert (not (= " ++ m ++ str " " ++ x ++ str ")))" ++ [nl] ++ str "(check-sat)" ++ [nl] ++ str "(exit)" ++ [nl].
Definition decls (G : text -> ty) (r : rule) : list (text * ty) := map (fun x => (x, G x)) (firsts [] (rule_vars r)).
Definition script (G : text -> ty) (r : rule) : text :=
  header ++ comment_block (rule_text r) ++ List.concat (map decl_line (decls G r)) ++
  footer (vexpr (r_match r)) (vexpr (r_result r)).

Lemma typed_printable G v t : typed G v t -> value_bad v = [].
Proof.
  revert v t. apply (typed_ind' G (fun v _ => value_bad v = [])); [reflexivity|].
  intros s o B O F IH. destruct B as (_ & _ & AI & A & _ & _). cbn [value_bad].
  rewrite O, AI, A. cbn. clear -IH. induction IH as [|a t l ts Ha _ IHl]; cbn; [reflexivity|]. rewrite Ha, IHl. reflexivity.
Qed.

Definition typable (G : text -> ty) (r : rule) : Prop :=
  r_cond r = None /\ r_block r = [] /\ (exists s, r_match r = SExp s) /\ rule_typed G r.

Lemma generate_typed G r : typable G r -> Generate r = Ok (script G r).
Proof.
  intros (C & B & [s M] & [t [TM TR]]). unfold Generate, g_generate.
  assert (Bytes (NRule r) = Ok (rule_text r)) as ->.
  { rewrite Bytes_eq. cbn [node_bad]. unfold rule_bad.
    rewrite C, (typed_printable _ _ _ TM), (typed_printable _ _ _ TR). reflexivity. }
  cbn [bind]. set (pre := header ++ comment_block (rule_text r)).
  match goal with |- context [g_eval (r_match r) None ?g] =>
    assert (Hg : g = Gst pre []) end.
  { unfold Gst, g_printf, pre, header, comment_block. cbn [g_out g_vars map List.concat rev].
    f_equal. rewrite ?app_nil_r, <- ?app_assoc. reflexivity. }
  rewrite Hg. clear Hg.
  assert (HM : g_eval (r_match r) None (Gst pre []) = Ok (sv (vexpr (r_match r)) t, Gst pre (add_vars G [] (value_vars (r_match r))))).
  { rewrite M in *. inversion TM as [|s' o BB O F]; subst. apply (sexp_typed G s o None); auto.
    - clear -F. induction F; constructor; auto. apply eval_typed. assumption.
    - intros ? ? []. }
  rewrite HM. cbn [bind]. rewrite C, B. cbn [v_type v_expr sv].
  rewrite (eval_typed G _ _ TR) by (apply add_vars_agree; intros ? ? []).
  cbn [bind]. unfold Gst, g_printf. cbn [g_out v_expr sv]. f_equal.
  rewrite <- add_vars_app. fold (rule_vars r). rewrite add_vars_firsts. cbn [app names map].
  unfold script, footer, pre. fold (decls G r). rewrite <- !app_assoc. reflexivity.
Qed.

Definition lookup_ty (ds : list (text * ty)) (x : text) : ty :=
  match find (fun d => text_eqb (fst d) x) ds with Some d => snd d | None => TyBool end.
Lemma lookup_agree ds : NoDup (names ds) -> agree (lookup_ty ds) ds.
Proof.
  intros N x t Hin. unfold lookup_ty. induction ds as [|[y u] ds IH]; [contradiction|].
  cbn in *. inversion N as [|? ? Hy Hn]; subst. destruct Hin as [E|Hin].
  - inversion E; subst. rewrite text_eqb_refl. reflexivity.
  - destruct (text_eqb_spec y x) as [->|]; [|auto]. elim Hy. apply in_map_iff. exists (x, t). auto.
Qed.

Lemma generate_sound r s : Generate r = Ok s -> exists G, typable G r.
Proof.
  unfold Generate, g_generate. intros E.
  destruct (Bytes (NRule r)) as [rt| |] eqn:Bt; cbn [bind] in E; try discriminate.
  rewrite Bytes_eq in Bt. 
  set (pre := header ++ comment_block rt).
  match type of E with context [g_eval (r_match r) None ?g] =>
    assert (Hg : g = Gst pre []) end.
  { unfold Gst, g_printf, pre, header, comment_block. cbn [g_out g_vars map List.concat rev].
    f_equal. rewrite ?app_nil_r, <- ?app_assoc. reflexivity. }
  rewrite Hg in E. clear Hg.
  destruct (g_eval (r_match r) None (Gst pre [])) as [[m g1]| |] eqn:Em; cbn [bind] in E; try discriminate.
  destruct (r_cond r) eqn:C; [discriminate|]. destruct (r_block r) eqn:B; [|discriminate].
  destruct (r_match r) as [sm| |x|] eqn:M; try discriminate.
  destruct (sexp_sound sm None) with (pre := pre) (ds := @nil (text * ty)) (r := m) (g' := g1)
    as [o [ds1 [_ [Tm [-> [X1 T1]]]]]]; auto.
  { apply Forall_forall. intros a _. apply eval_sound. }
  rewrite Tm in E.
  destruct (g_eval (r_result r) (Some (gt (result o))) (Gst pre ds1)) as [[x g2]| |] eqn:Er; cbn [bind] in E; try discriminate.
  destruct (eval_sound (r_result r) (result o) pre ds1 x g2 Er) as [_ [ds2 [-> [X2 T2]]]].
  exists (lookup_ty ds2).
  assert (N : NoDup (names ds2)) by (apply X2, X1; constructor).
  pose proof (lookup_agree ds2 N) as A2.
  destruct (T1 (lookup_ty ds2) (ext_agree _ _ _ X2 A2)) as [BB [O F]].
  repeat split; auto; [rewrite M; eauto|]. exists (result o). split.
  - rewrite M. constructor; assumption.
  - apply T2. exact A2.
Qed.

Lemma generate_iff r s : Generate r = Ok s <-> exists G, typable G r /\ s = script G r.
Proof.
  split.
  - intros E. destruct (generate_sound r s E) as [G T]. exists G. split; [exact T|].
    rewrite (generate_typed G r T) in E. congruence.
  - intros [G [T ->]]. apply generate_typed. exact T.
Qed.

(** No panics. *)
Lemma op_params_no_panic o t m : op_params o t <> Panic m.
Proof. unfold op_params. destruct t; [destruct (find _ _); discriminate|]. destruct (op_sigs o) as [|? [|]]; try discriminate; destruct (find _ _); discriminate. Qed.
Lemma precheck_no_panic s m : g_precheck s <> Panic m.
Proof.
  unfold g_precheck. destruct (s_binding s), (s_type s), (s_auxint s), (s_aux s), (s_ellipsis s), (s_trailing s); try discriminate; cbn.
  destruct (s_op s); try discriminate. destruct (lookup_op _ _); discriminate.
Qed.
Lemma wrap_panic {A} p (r : res A) m : wrap p r = Panic m -> r = Panic m.
Proof. destruct r; cbn; congruence. Qed.
Lemma typesort_no_panic t m : typesort t <> Panic m.
Proof. destruct t as [[]|]; discriminate. Qed.
Lemma args_no_panic c args : Forall (fun a => forall t g m, g_eval a t g <> Panic m) args ->
  forall ps i g m, List.length ps = List.length args -> g_args c (fun a => g_eval a) i args ps g <> Panic m.
Proof.
  induction 1 as [|a args Ha _ IH]; intros [|p ps] i g m L E; try discriminate.
  cbn [g_args] in E. destruct (g_eval a p g) as [[v g1]| |m'] eqn:Ea; cbn [wrap bind] in E; try discriminate.
  - destruct (g_args c _ (S i) args ps g1) as [[vs g2]| |m'] eqn:Er; cbn [bind] in E; try discriminate.
    cbn in L. eapply IH; [|exact Er]. lia.
  - eapply Ha; eauto.
Qed.
Lemma eval_no_panic v : forall t g m, g_eval v t g <> Panic m.
Proof.
  induction v as [s IH|e|x|] using value_ind'; intros t g m E; try discriminate.
  - cbn [g_eval] in E. pose proof (precheck_no_panic s) as Hp.
    destruct (g_precheck s) as [[c o]| |m']; cbn [bind] in E; try discriminate; [|elim (Hp m' eq_refl)].
    pose proof (op_params_no_panic o t) as Hq.
    destruct (op_params o t) as [ps| |m']; cbn [wrap bind] in E; try discriminate; [|elim (Hq m' eq_refl)].
    destruct (Nat.eqb_spec (List.length ps) (List.length (s_args s))) as [L|]; cbn [negb] in E; [|discriminate].
    pose proof (args_no_panic c (s_args s) IH ps 0 g) as Ha.
    destruct (g_args _ _ _ _ _ _) as [[vs g']| |m']; cbn [bind] in E; try discriminate; [|elim (Ha m' L eq_refl)].
    unfold op_evaluate in E. destruct (fold_left _ _ _); discriminate.
  - cbn [g_eval] in E. unfold g_variable in E. destruct (lookup_var g x) as [v|].
    + destruct t; [destruct (identical _ _)|]; discriminate.
    + destruct t as [t|]; [|discriminate]. destruct (typesort t) eqn:Et; try discriminate. exact (typesort_no_panic _ _ Et).
Qed.
Lemma Bytes_no_panic n m : Bytes n <> Panic m.
Proof. rewrite Bytes_eq. destruct (node_bad n); discriminate. Qed.
Lemma generate_no_panic r m : Generate r <> Panic m.
Proof.
  unfold Generate, g_generate. pose proof (Bytes_no_panic (NRule r)) as HB.
  destruct (Bytes (NRule r)) as [rt| |m']; cbn [bind]; try discriminate; [|intros _; eapply HB; reflexivity].
  match goal with |- context [g_eval (r_match r) None ?g] => pose proof (eval_no_panic (r_match r) None g) as Hm end.
  destruct (g_eval (r_match r) None _) as [[mv g1]| |m']; cbn [bind]; try discriminate; [|intros _; eapply Hm; reflexivity].
  destruct (r_cond r); [discriminate|]. destruct (r_block r); [|discriminate].
  pose proof (eval_no_panic (r_result r) (Some (v_type mv)) g1) as Hr.
  destruct (g_eval (r_result r) _ g1) as [[xv g2]| |m']; cbn [bind]; try discriminate. intros _; eapply Hr; reflexivity.
Qed.
