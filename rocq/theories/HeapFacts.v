(** Facts about pass/alt.go on a heap: it writes fresh cells only, and it computes
    what Expand.v computes on trees. *)
From Verif Require Import Text GoAst Ast Expand Heap SpecHeap TreeFacts.
From Coq Require Import Arith Lia Bool.

(** ** Frame *)
Definition keeps (base h : heap) : Prop := exists t, h = base ++ t.
Lemma keeps_refl h : keeps h h. Proof. exists []. rewrite app_nil_r. reflexivity. Qed.
Lemma keeps_trans a b c : keeps a b -> keeps b c -> keeps a c.
Proof. intros [s ->] [t ->]. exists (s ++ t). rewrite app_assoc. reflexivity. Qed.
Lemma keeps_len a b : keeps a b -> List.length a <= List.length b.
Proof. intros [t ->]. rewrite app_length. lia. Qed.

Lemma put_spec p c h : forall q, p < List.length h -> nth_error (put p c h) q = if q =? p then Some c else nth_error h q.
Proof.
  revert h. induction p as [|p IH]; intros [|x h] q L; cbn in L; try lia.
  - destruct q; reflexivity.
  - change (put (S p) c (x :: h)) with (x :: put p c h). destruct q as [|q]; [reflexivity|]. cbn [nth_error]. rewrite IH by lia. reflexivity.
Qed.
Lemma put_length p c h : p < List.length h -> List.length (put p c h) = List.length h.
Proof. intros L. unfold put. rewrite app_length, firstn_length. cbn [List.length]. rewrite skipn_length. lia. Qed.

Lemma run_bind {A B} (m : M A) (k : A -> M B) : forall h, mbind m k h =
  match m h with (h', Ok a) => k a h' | (h', Err e) => (h', Err e) | (h', Panic x) => (h', Panic x) end.
Proof. induction m as [[a|e|x]|p j IH|c j IH|p c j IH]; intros h; cbn [mbind run]; try reflexivity; apply IH. Qed.
Lemma get_run p h : get p h = (h, match nth_error h p with Some c => Ok c | None => Panic ill_typed end).
Proof. cbn. destruct (nth_error h p); reflexivity. Qed.

Definition safe {A} (base : heap) (m : M A) (Q : A -> Prop) : Prop :=
  forall h, keeps base h -> keeps base (fst (m h)) /\ forall a, snd (m h) = Ok a -> Q a.
Lemma safe_weak {A} base (m : M A) (P Q : A -> Prop) : safe base m P -> (forall a, P a -> Q a) -> safe base m Q.
Proof. intros S H h K. destruct (S h K) as [A1 A2]. split; auto. Qed.
Lemma safe_bind {A B} base (m : M A) (k : A -> M B) P Q : safe base m P -> (forall a, P a -> safe base (k a) Q) -> safe base (mbind m k) Q.
Proof.
  intros S T h K. destruct (S h K) as [K' H]. rewrite run_bind. destruct (m h) as [h' [a|e|x]]; cbn [fst snd] in *; [apply T; auto|split; [exact K'|discriminate]..].
Qed.
Lemma safe_ret {A} base (a : A) (Q : A -> Prop) : Q a -> safe base (ret a) Q.
Proof. intros H h K. cbn. split; [exact K|]. intros x E. inversion E; subst. exact H. Qed.
Lemma safe_lift {A} base (r : res A) : safe base (lift r) (fun _ => True).
Proof. intros h K. cbn. auto. Qed.
Lemma safe_panics {A} base m (Q : A -> Prop) : safe base (panics m) Q.
Proof. intros h K. cbn. split; [exact K|discriminate]. Qed.
Lemma safe_fails {A} base m (Q : A -> Prop) : safe base (fails m) Q.
Proof. intros h K. cbn. split; [exact K|discriminate]. Qed.
Lemma safe_get base p : safe base (get p) (fun _ => True).
Proof. intros h K. rewrite get_run. cbn [fst snd]. auto. Qed.
Lemma safe_alloc base c : safe base (alloc c) (fun p => List.length base <= p).
Proof.
  intros h K. cbn. split; [eapply keeps_trans; [exact K|]; exists [c]; reflexivity|]. intros p E. inversion E; subst. apply keeps_len. exact K.
Qed.
Lemma put_above base p c h : keeps base h -> List.length base <= p -> keeps base (put p c h).
Proof.
  intros [t ->] L. unfold put. rewrite firstn_app. rewrite firstn_all2 by exact L. rewrite <- app_assoc. eexists. reflexivity.
Qed.
Lemma safe_store base p c : List.length base <= p -> safe base (store p c) (fun _ => True).
Proof. intros L h K. cbn [run store fst snd ret]. split; [|auto]. unfold write. destruct (p <? _); [apply put_above; assumption|exact K]. Qed.
Lemma safe_get_arr base p : safe base (get_arr p) (fun _ => True).
Proof. eapply safe_bind; [apply safe_get|]. intros c _. destruct c; first [apply safe_panics|apply safe_ret; exact I]. Qed.
Lemma safe_get_sexpr base p : safe base (get_sexpr p) (fun _ => True).
Proof. eapply safe_bind; [apply safe_get|]. intros c _. destruct c; first [apply safe_panics|apply safe_ret; exact I]. Qed.
Lemma safe_get_rule base p : safe base (get_rule p) (fun _ => True).
Proof. eapply safe_bind; [apply safe_get|]. intros c _. destruct c; first [apply safe_panics|apply safe_ret; exact I]. Qed.
Lemma safe_at base sl i : safe base (at_ sl i) (fun _ => True).
Proof.
  unfold at_. destruct (i <? sl_len sl); [|apply safe_panics]. eapply safe_bind; [apply safe_get_arr|]. intros l _.
  destruct (nth_error l _); [apply safe_ret; exact I|apply safe_panics].
Qed.
Lemma safe_elements base sl : safe base (elements sl) (fun _ => True).
Proof.
  unfold elements. destruct (sl_len sl =? 0); [apply safe_ret; exact I|]. eapply safe_bind; [apply safe_get_arr|]. intros l _. apply safe_ret. exact I.
Qed.
(** A slice that may be appended to without touching [base]. *)
Definition mine (base : heap) (sl : slice) : Prop := sl_cap sl = 0 \/ List.length base <= sl_arr sl.
Lemma safe_literal base ws : safe base (literal ws) (fun _ => True).
Proof. eapply safe_bind; [apply safe_alloc|]. intros a L. apply safe_ret. exact I. Qed.
Lemma safe_make base z n : safe base (make z n) (mine base).
Proof. eapply safe_bind; [apply safe_alloc|]. intros a L. apply safe_ret. right. exact L. Qed.
Lemma mine_nil base : mine base nil_slice. Proof. left. reflexivity. Qed.

Section Frame.
  Variable spare : nat -> nat -> nat.
  Lemma safe_append base sl ws : mine base sl -> safe base (append spare sl ws) (mine base).
  Proof.
    intros Hm. unfold append. destruct (Nat.leb_spec (sl_len sl + List.length ws) (sl_cap sl)) as [L|L].
    - destruct (Nat.eqb_spec (List.length ws) 0) as [E|E]; [apply safe_ret; exact Hm|].
      assert (X : List.length base <= sl_arr sl) by (destruct Hm as [Z|Z]; [lia|exact Z]).
      eapply safe_bind; [apply safe_get_arr|]. intros l _. eapply safe_bind; [apply safe_store; exact X|]. intros _ _. apply safe_ret. right. exact X.
    - eapply safe_bind; [apply safe_elements|]. intros old _. eapply safe_bind; [apply safe_alloc|]. intros a La. apply safe_ret. right. exact La.
  Qed.
  Lemma safe_expandop base o : safe base (h_expandop o) (fun _ => True).
  Proof.
    destruct o as [c|a|]; cbn [h_expandop]; try apply safe_lift. eapply safe_bind; [apply safe_get|]. intros c _. destruct c; first [apply safe_panics|apply safe_lift].
  Qed.
  Lemma safe_args_loop base expand args : (forall v, safe base (expand v) (fun _ => True)) ->
    forall k j n, safe base (h_args_loop expand args k j n) (fun _ => True).
  Proof.
    intros He. induction k as [|k IH]; intros j n; cbn [h_args_loop]; [apply safe_ret; exact I|].
    eapply safe_bind; [apply safe_at|]. intros arg _. eapply safe_bind; [apply He|]. intros ea _. eapply safe_bind; [apply safe_lift|]. intros n' _.
    eapply safe_bind; [apply IH|]. intros r _. apply safe_ret. exact I.
  Qed.
  Lemma safe_pick_args base expargs i : forall args, mine base args -> safe base (pick_args spare expargs i args) (fun _ => True).
  Proof.
    induction expargs as [|alts rest IH]; intros args Hm; cbn [pick_args]; [apply safe_ret; exact I|].
    eapply safe_bind; [apply safe_at|]. intros w _. eapply safe_bind; [apply safe_append; exact Hm|]. intros args' Hm'. apply IH. exact Hm'.
  Qed.
  Lemma safe_alternates base s opcodes expargs : forall k i vs, mine base vs -> safe base (alternates spare s opcodes expargs k i vs) (mine base).
  Proof.
    induction k as [|k IH]; intros i vs Hm; cbn [alternates]; [apply safe_ret; exact Hm|].
    eapply safe_bind; [apply safe_get_sexpr|]. intros c _. eapply safe_bind; [apply safe_alloc|]. intros v Hv.
    eapply safe_bind; [apply safe_lift|]. intros o _. eapply safe_bind; [apply safe_get_sexpr|]. intros c1 _.
    eapply safe_bind; [apply safe_store; exact Hv|]. intros _ _. eapply safe_bind; [apply safe_pick_args, mine_nil|]. intros args _.
    eapply safe_bind; [apply safe_get_sexpr|]. intros c2 _. eapply safe_bind; [apply safe_store; exact Hv|]. intros _ _.
    eapply safe_bind; [apply safe_append; exact Hm|]. intros vs' Hm'. apply IH. exact Hm'.
  Qed.
  Lemma safe_expandvalue base fuel : forall v, safe base (h_expandvalue spare fuel v) (fun _ => True).
  Proof.
    induction fuel as [|fuel IH]; intros v; cbn [h_expandvalue]; [apply safe_panics|].
    destruct v as [[s|]|p|x| |p]; try apply safe_panics; try apply safe_literal; try apply safe_fails.
    eapply safe_bind; [apply safe_get_sexpr|]. intros c _. eapply safe_bind; [apply safe_expandop|]. intros os _.
    eapply safe_bind; [apply safe_args_loop; exact IH|]. intros r _. destruct (fst r =? 1); [apply safe_literal|].
    eapply safe_bind; [apply safe_make|]. intros vs Hm. eapply safe_weak; [apply safe_alternates; exact Hm|auto].
  Qed.
  Lemma safe_new_rules base r ms rs : forall k i rules, mine base rules -> safe base (new_rules spare r ms rs k i rules) (mine base).
  Proof.
    induction k as [|k IH]; intros i rules Hm; cbn [new_rules]; [apply safe_ret; exact Hm|].
    eapply safe_bind; [apply safe_at|]. intros m _. eapply safe_bind; [apply safe_get_rule|]. intros c _. eapply safe_bind; [apply safe_at|]. intros x _.
    eapply safe_bind; [apply safe_alloc|]. intros p _. eapply safe_bind; [apply safe_append; exact Hm|]. intros rules' Hm'. apply IH. exact Hm'.
  Qed.
  Lemma safe_expandrule base fuel r : safe base (h_expandrule spare fuel r) (fun _ => True).
  Proof.
    destruct r as [r|]; cbn [h_expandrule]; [|apply safe_panics]. eapply safe_bind; [apply safe_get_rule|]. intros c _.
    eapply safe_bind; [apply safe_expandvalue|]. intros ms _. eapply safe_bind; [apply safe_get_rule|]. intros c1 _. eapply safe_bind; [apply safe_expandvalue|]. intros rs _.
    eapply safe_bind; [apply safe_lift|]. intros n _. destruct (n =? 1); [apply safe_literal|]. eapply safe_bind; [apply safe_make|]. intros rules Hm. eapply safe_weak; [apply safe_new_rules; exact Hm|auto].
  Qed.
  Lemma safe_expandrules base fuel rules : forall k j exps, mine base exps -> safe base (h_expandrules spare fuel rules k j exps) (mine base).
  Proof.
    induction k as [|k IH]; intros j exps Hm; cbn [h_expandrules]; [apply safe_ret; exact Hm|].
    eapply safe_bind; [apply safe_at|]. intros w _. destruct w; try apply safe_panics. eapply safe_bind; [apply safe_expandrule|]. intros exp _.
    eapply safe_bind; [apply safe_elements|]. intros ws _. eapply safe_bind; [apply safe_append; exact Hm|]. intros exps' Hm'. apply IH. exact Hm'.
  Qed.

  (** Everything but the file's slice is as before; that too if it fails. *)
  Lemma expand_frame fuel f h : forall h' r, h_ExpandAlternates spare fuel f h = (h', r) ->
    (forall p c, nth_error h p = Some c -> f <> Some p \/ (forall u, r <> Ok u) -> nth_error h' p = Some c) /\
    (forall p, f = Some p -> (exists u, r = Ok u) -> exists sl sl', nth_error h p = Some (CFile sl) /\ nth_error h' p = Some (CFile sl')).
  Proof.
    intros h' r E. destruct f as [f|]; [|inversion E; subst; split; [auto|discriminate]].
    cbn [h_ExpandAlternates] in E. rewrite run_bind, get_run in E.
    destruct (nth_error h f) as [c|] eqn:G; [|inversion E; subst; split; [auto|intros p _ [u X]; discriminate]].
    destruct c as [| | |rules| |]; try (inversion E; subst; split; [auto|intros p _ [u X]; discriminate]).
    rewrite run_bind in E. pose proof (safe_expandrules h fuel rules (sl_len rules) 0 nil_slice (mine_nil h) h (keeps_refl h)) as [K _].
    destruct (h_expandrules spare fuel rules (sl_len rules) 0 nil_slice h) as [h1 [sl|e|x]]; cbn [fst] in K; destruct K as [t ->].
    - cbn [store run ret] in E. unfold write in E. assert (L : f < List.length h) by (apply nth_error_Some; congruence). rewrite (proj2 (Nat.ltb_lt _ _)) in E by (rewrite app_length; lia).
      inversion E; subst. split.
      + intros p c Hp [N|N]; [|destruct (N tt eq_refl)]. assert (p < List.length h) by (apply nth_error_Some; congruence). assert (p <> f) by congruence.
        rewrite put_spec by (rewrite app_length; lia). destruct (Nat.eqb_spec p f); [contradiction|]. rewrite nth_error_app1 by lia. exact Hp.
      + intros p X _. inversion X; subst. exists rules, sl. split; [exact G|]. rewrite put_spec by (rewrite app_length; lia). rewrite Nat.eqb_refl. reflexivity.
    - inversion E; subst. split; [|intros p _ [u X]; discriminate]. intros p c Hp _. rewrite nth_error_app1; [exact Hp|]. apply nth_error_Some. congruence.
    - inversion E; subst. split; [|intros p _ [u X]; discriminate]. intros p c Hp _. rewrite nth_error_app1; [exact Hp|]. apply nth_error_Some. congruence.
  Qed.
End Frame.

Lemma mbind_ok {A B} (m : M A) (k : A -> M B) h h' a : m h = (h', Ok a) -> mbind m k h = k a h'.
Proof. intros E. rewrite run_bind, E. reflexivity. Qed.
Lemma mbind_err {A B} (m : M A) (k : A -> M B) h h' e : m h = (h', Err e) -> mbind m k h = (h', Err e).
Proof. intros E. rewrite run_bind, E. reflexivity. Qed.
Lemma mbind_panic {A B} (m : M A) (k : A -> M B) h h' x : m h = (h', Panic x) -> mbind m k h = (h', Panic x).
Proof. intros E. rewrite run_bind, E. reflexivity. Qed.
Lemma store_ok p c h : p < List.length h -> store p c h = (put p c h, Ok tt).
Proof. intros L. cbn [store run ret]. unfold write. rewrite (proj2 (Nat.ltb_lt _ _)) by exact L. reflexivity. Qed.

(** ** Views *)
Definition sub (g g' : nat -> option cell) : Prop := forall p c, g p = Some c -> g' p = Some c.
Notation view h := (@nth_error cell h).
Lemma sub_refl g : sub g g. Proof. intros p c H. exact H. Qed.
Lemma sub_trans a b c : sub a b -> sub b c -> sub a c. Proof. intros A B p x H. auto. Qed.
Lemma keeps_sub h h' : keeps h h' -> sub (view h) (view h').
Proof. intros [t ->] p c H. rewrite nth_error_app1; [exact H|]. apply nth_error_Some. congruence. Qed.
Lemma sub_fresh g h p : sub g (view h) -> List.length h <= p -> g p = None.
Proof. intros S L. destruct (g p) as [c|] eqn:E; [|reflexivity]. apply S in E. assert (nth_error h p <> None) as X by congruence. apply nth_error_Some in X. lia. Qed.
Lemma sub_alloc g h c : sub g (view h) -> sub g (view (h ++ [c])).
Proof. intros S. eapply sub_trans; [exact S|]. apply keeps_sub. exists [c]. reflexivity. Qed.
Lemma sub_put g h p c : sub g (view h) -> g p = None -> p < List.length h -> sub g (view (put p c h)).
Proof. intros S N L q d H. rewrite put_spec by exact L. destruct (Nat.eqb_spec q p) as [->|]; [congruence|]. apply S. exact H. Qed.

Lemma sub_len h h' : sub (view h) (view h') -> List.length h <= List.length h'.
Proof.
  intros S. destruct (Nat.le_gt_cases (List.length h) (List.length h')) as [L|L]; [exact L|]. exfalso.
  destruct (nth_error h (List.length h')) as [c|] eqn:E; [|apply nth_error_None in E; lia]. apply S in E.
  assert (X : nth_error h' (List.length h') <> None) by congruence. apply nth_error_Some in X. lia.
Qed.
(** [g'] sees no more than [g] of the first [n] cells. *)
Definition blind (n : nat) (g g' : nat -> option cell) : Prop := forall p, p < n -> g p = None -> g' p = None.
Lemma blind_refl n g : blind n g g. Proof. intros p _ H. exact H. Qed.
Lemma blind_trans n m a b c : n <= m -> blind n a b -> blind m b c -> blind n a c.
Proof. intros L A B p H N. apply B; [lia|]. apply A; assumption. Qed.
Definition with_cell (g : nat -> option cell) (a : nat) (o : option cell) : nat -> option cell := fun q => if q =? a then o else g q.
Lemma with_new g a o : g a = None -> sub g (with_cell g a o).
Proof. intros N q d H. unfold with_cell. destruct (Nat.eqb_spec q a); [congruence|exact H]. Qed.
Lemma with_view g a h : sub g (view h) -> sub (with_cell g a (nth_error h a)) (view h).
Proof. intros S q d. unfold with_cell. destruct (Nat.eqb_spec q a) as [->|]; auto. Qed.
Lemma with_blind n g a o : n <= a -> blind n g (with_cell g a o).
Proof. intros L p Lp N. unfold with_cell. destruct (Nat.eqb_spec p a); [lia|exact N]. Qed.

Section Mono.
  Variables g g' : nat -> option cell.
  Hypothesis S : sub g g'.
  Lemma expr_at_mono p o : expr_at g p o -> expr_at g' p o.
  Proof. destruct p, o; cbn; auto. Qed.
  Lemma op_at_mono x o : op_at g x o -> op_at g' x o.
  Proof. destruct x, o; cbn; auto. Qed.
  Lemma slice_at_mono sl ws : slice_at g sl ws -> slice_at g' sl ws.
  Proof. intros [L [E|(a & b & E & La)]]; (split; [exact L|]); [left; exact E|right; eauto]. Qed.
  Lemma Forall2_weak {A B} (P Q : A -> B -> Prop) l m : (forall a b, In b m -> P a b -> Q a b) -> Forall2 P l m -> Forall2 Q l m.
  Proof. intros H F. induction F; constructor; [apply H; cbn; auto|apply IHF; intros; apply H; cbn; auto]. Qed.
  Lemma value_at_mono v : forall w, value_at g w v -> value_at g' w v.
  Proof.
    induction v as [s IH|e|x|] using value_ind'; intros w H; inversion H; subst; try (constructor; auto; fail).
    econstructor; eauto using expr_at_mono, op_at_mono, slice_at_mono. eapply Forall2_weak; [|eassumption]. intros a b I X. rewrite Forall_forall in IH. apply IH; assumption.
  Qed.
  Lemma values_mono ws vs : Forall2 (value_at g) ws vs -> Forall2 (value_at g') ws vs.
  Proof. apply Forall2_weak. intros a b _. apply value_at_mono. Qed.
  Lemma rule_at_mono w r : rule_at g w r -> rule_at g' w r.
  Proof. intros (p & c & -> & E & A & B & C & D). exists p, c. repeat split; auto using expr_at_mono, value_at_mono. Qed.
  Lemma rules_mono ws vs : Forall2 (rule_at g) ws vs -> Forall2 (rule_at g') ws vs.
  Proof. apply Forall2_weak. intros a b _. apply rule_at_mono. Qed.
End Mono.

Lemma Forall2_length {A B} (P : A -> B -> Prop) l m : Forall2 P l m -> List.length l = List.length m.
Proof. intros F. induction F; cbn; congruence. Qed.
Definition alts_at g (sl : slice) (ts : list value) : Prop := exists ws, slice_at g sl ws /\ Forall2 (value_at g) ws ts.
Lemma alts_mono g g' sl ts : sub g g' -> alts_at g sl ts -> alts_at g' sl ts.
Proof. intros S (ws & A & B). exists ws. split; [eapply slice_at_mono; eauto|eapply values_mono; eauto]. Qed.
Lemma alts_len g sl ts : alts_at g sl ts -> sl_len sl = List.length ts.
Proof. intros (ws & [L _] & F). rewrite L. exact (Forall2_length _ _ _ F). Qed.

(** ** Slices *)
Lemma at_ok g h sl ws i w : sub g (view h) -> slice_at g sl ws -> nth_error ws i = Some w -> at_ sl i h = (h, Ok w).
Proof.
  intros S [L [->|(a & b & E & La)]] N; [destruct i; discriminate|]. unfold at_. assert (i < List.length ws) by (apply nth_error_Some; congruence).
  rewrite (proj2 (Nat.ltb_lt _ _)) by lia. apply S in E. unfold get_arr. rewrite !run_bind, get_run, E. cbn [ret run].
  rewrite <- La, nth_error_app2, (Nat.add_comm _ i), Nat.add_sub, nth_error_app1 by lia. rewrite N. reflexivity.
Qed.
Lemma at_panic h sl i : sl_len sl <= i ->
  at_ sl i h = (h, Panic (str "runtime error: index out of range [" ++ dec i ++ str "] with length " ++ dec (sl_len sl))).
Proof. intros L. unfold at_. rewrite (proj2 (Nat.ltb_ge _ _)) by lia. reflexivity. Qed.
Lemma index_at g h sl ts i : sub g (view h) -> alts_at g sl ts ->
  match index ts i with
  | Ok t => exists w, at_ sl i h = (h, Ok w) /\ value_at g w t
  | Err _ => False
  | Panic m => at_ sl i h = (h, Panic m)
  end.
Proof.
  intros S A. pose proof (alts_len _ _ _ A) as L. destruct A as (ws & Sl & F). unfold index. destruct (nth_error ts i) as [t|] eqn:E.
  - assert (X : exists w, nth_error ws i = Some w /\ value_at g w t).
    { clear -F E. revert i E. induction F; intros [|i] E; try discriminate; cbn in *; [inversion E; subst; eauto|eauto]. }
    destruct X as (w & N & V). exists w. split; [eapply at_ok; eauto|exact V].
  - rewrite <- L. apply at_panic. rewrite L. apply nth_error_None. exact E.
Qed.

(** A slice under construction, holding [ws]. *)
Definition own (h : heap) (sl : slice) (ws : list word) : Prop :=
  sl_off sl = 0 /\ sl_len sl = List.length ws /\
  (sl_cap sl = 0 /\ ws = [] \/ exists rest, nth_error h (sl_arr sl) = Some (CArr (ws ++ rest)) /\ sl_cap sl = List.length (ws ++ rest)).
Definition hid (g : nat -> option cell) (sl : slice) : Prop := sl_cap sl = 0 \/ g (sl_arr sl) = None.
Lemma own_nil h : own h nil_slice []. Proof. repeat split. left. split; reflexivity. Qed.
Lemma hid_nil g : hid g nil_slice. Proof. left. reflexivity. Qed.
Lemma own_slice h sl ws : own h sl ws -> slice_at (view h) sl ws.
Proof.
  intros (O & L & [[_ ->]|(rest & E & _)]); (split; [exact L|]); [left; reflexivity|right]. exists [], rest. split; [exact E|symmetry; exact O].
Qed.
Lemma own_mono h h' sl ws : (forall c, nth_error h (sl_arr sl) = Some c -> nth_error h' (sl_arr sl) = Some c) -> own h sl ws -> own h' sl ws.
Proof. intros S (O & L & [C|(rest & E & C)]); (split; [exact O|]); (split; [exact L|]); [left; exact C|right; eauto]. Qed.
Lemma own_bound h sl ws : own h sl ws -> sl_cap sl = 0 \/ sl_arr sl < List.length h.
Proof. intros (_ & _ & [[C _]|(rest & E & _)]); [auto|right]. apply nth_error_Some. congruence. Qed.

Section Refine.
  Variable spare : nat -> nat -> nat.

  Lemma append_ok g h sl ws xs : sub g (view h) -> own h sl ws -> hid g sl ->
    exists h' sl', append spare sl xs h = (h', Ok sl') /\ sub g (view h') /\ own h' sl' (ws ++ xs) /\ hid g sl' /\ List.length h <= List.length h'.
  Proof.
    intros S O Hd. pose proof (own_bound _ _ _ O) as B. destruct O as (Of & L & C). unfold append.
    destruct (Nat.leb_spec (sl_len sl + List.length xs) (sl_cap sl)) as [Le|Le].
    - destruct (Nat.eqb_spec (List.length xs) 0) as [E|E].
      + destruct xs; [|discriminate]. exists h, sl. rewrite app_nil_r. repeat split; auto.
      + destruct C as [[C _]|(rest & Ea & C)]; [lia|]. destruct B as [B|B]; [lia|]. destruct Hd as [Hd|Hd]; [lia|].
        unfold get_arr. rewrite !run_bind, get_run, Ea. cbn [ret run mbind store]. unfold write. rewrite (proj2 (Nat.ltb_lt _ _)) by exact B.
        assert (Ov : overwrite (ws ++ rest) (sl_off sl + sl_len sl) xs = (ws ++ xs) ++ skipn (List.length xs) rest).
        { unfold overwrite. rewrite Of, L, Nat.add_0_l. rewrite firstn_app, firstn_all, Nat.sub_diag, firstn_O, app_nil_r.
          rewrite <- app_assoc. f_equal. f_equal. rewrite skipn_app. rewrite skipn_all2 by lia. cbn [app]. f_equal. lia. }
        rewrite Ov. eexists _, _. split; [reflexivity|]. split; [apply sub_put; auto|]. split; [|split; [right; exact Hd|rewrite put_length by exact B; auto]].
        split; [exact Of|]. split; [cbn [sl_len]; rewrite app_length; lia|]. right. exists (skipn (List.length xs) rest). cbn [sl_arr sl_cap].
        rewrite put_spec, Nat.eqb_refl by exact B. split; [reflexivity|]. rewrite app_length in C. rewrite !app_length, skipn_length. lia.
    - unfold elements. rewrite run_bind.
      assert (X : (if sl_len sl =? 0 then ret [] else do l <- get_arr (sl_arr sl); ret (firstn (sl_len sl) (skipn (sl_off sl) l))) h = (h, Ok ws)).
      { destruct (Nat.eqb_spec (sl_len sl) 0) as [Z|Z]; [destruct ws; [reflexivity|rewrite L in Z; discriminate]|].
        destruct C as [[_ ->]|(rest & Ea & C)]; [cbn in L; lia|]. unfold get_arr. rewrite !run_bind, get_run, Ea. cbn [ret run]. rewrite Of, L. cbn [skipn].
        rewrite firstn_app, firstn_all, Nat.sub_diag, firstn_O, app_nil_r. reflexivity. }
      rewrite X. cbn [alloc]. eexists _, _. split; [reflexivity|]. split; [apply sub_alloc; exact S|].
      split; [|split; [right; cbn [sl_arr]; eapply sub_fresh; eauto|rewrite app_length; lia]]. split; [reflexivity|]. split; [cbn [sl_len]; rewrite app_length; lia|].
      right. exists (repeat (zero xs) (spare (sl_cap sl) (sl_len sl + List.length xs))). cbn [sl_arr sl_cap]. rewrite nth_error_app2, Nat.sub_diag by auto. cbn [nth_error].
      rewrite <- app_assoc. split; [reflexivity|]. rewrite !app_length, repeat_length. lia.
  Qed.

  Lemma pick_ok g slices expargs i : Forall2 (alts_at g) slices expargs -> forall k h args ws, sub g (view h) -> sub k (view h) -> own h args ws -> hid k args -> hid g args ->
    match mapM (fun alts => index alts (idx i (List.length alts))) expargs with
    | Ok ts => exists h' args' ws', pick_args spare slices i args h = (h', Ok args') /\ sub k (view h') /\ own h' args' (ws ++ ws') /\ hid k args' /\ Forall2 (value_at g) ws' ts
    | Err _ => False
    | Panic m => exists h', pick_args spare slices i args h = (h', Panic m)
    end.
  Proof.
    intros F. induction F as [|sl alts slices expargs A F IH]; intros k h args ws S Sk O Hk Hg.
    - cbn. exists h, args, []. rewrite app_nil_r. split; [reflexivity|]. split; [exact Sk|]. split; [exact O|]. split; [exact Hk|constructor].
    - cbn [mapM pick_args]. rewrite (alts_len _ _ _ A). pose proof (index_at g h sl alts (idx i (List.length alts)) S A) as X.
      destruct (index alts (idx i (List.length alts))) as [t|e|m]; cbn [bind]; [|contradiction|].
      + destruct X as (w & E & V). rewrite (mbind_ok _ _ _ _ _ E).
        set (gk := fun p => match g p with Some c => Some c | None => k p end).
        assert (Sgk : sub gk (view h)) by (intros p c; unfold gk; destruct (g p) eqn:Eg; [intros Y; inversion Y; subst; apply S; exact Eg|apply Sk]).
        assert (Hgk : hid gk args) by (destruct Hk as [Z|Z]; [left; exact Z|]; destruct Hg as [Z'|Z']; [left; exact Z'|right]; unfold gk; rewrite Z', Z; reflexivity).
        assert (S1 : sub g gk) by (intros p c Y; unfold gk; rewrite Y; reflexivity).
        assert (S2 : sub k gk).
        { intros p c Y. unfold gk. destruct (g p) eqn:Eg; [|exact Y]. apply S in Eg. apply Sk in Y. congruence. }
        destruct (append_ok gk h args ws [w] Sgk O Hgk) as (h' & args' & Ea & S' & O' & Hd' & _). rewrite (mbind_ok _ _ _ _ _ Ea).
        assert (Hd1 : hid k args') by (destruct Hd' as [Z|Z]; [left; exact Z|right]; unfold gk in Z; destruct (g (sl_arr args')); congruence).
        assert (Hd2 : hid g args') by (destruct Hd' as [Z|Z]; [left; exact Z|right]; unfold gk in Z; destruct (g (sl_arr args')); congruence).
        specialize (IH k h' args' (ws ++ [w]) (sub_trans _ _ _ S1 S') (sub_trans _ _ _ S2 S') O' Hd1 Hd2).
        destruct (mapM _ expargs) as [ts|e|m]; cbn [bind]; [|contradiction|exact IH].
        destruct IH as (h2 & args2 & ws' & E2 & Sk2 & O2 & Hk2 & F2). exists h2, args2, (w :: ws'). rewrite <- app_assoc in O2. split; [exact E2|]. split; [exact Sk2|]. split; [exact O2|]. split; [exact Hk2|constructor; assumption].
      + rewrite (mbind_panic _ _ _ _ _ X). eauto.
  Qed.

  (** The cell [c] at [p] is the top of [s]. *)
  Definition top_at g (c : hsexpr) (s : sexpr) : Prop :=
    h_binding c = s_binding s /\ h_type c = s_type s /\ expr_at g (h_auxint c) (s_auxint s) /\ expr_at g (h_aux c) (s_aux s) /\
    h_ellipsis c = s_ellipsis s /\ h_trailing c = s_trailing s.

  Lemma alternates_ok p c s opcodes expargs slices : forall k i g h vs ws done,
    sub g (view h) -> own h vs ws -> hid g vs -> g p = Some (CSExpr c) -> top_at g c s -> Forall2 (alts_at g) slices expargs -> Forall2 (value_at g) ws done ->
    match mapM (buildsexpr s opcodes expargs) (seq i k) with
    | Ok ts => exists h' vs' ws' g', alternates spare p opcodes slices k i vs h = (h', Ok vs') /\ sub g g' /\ sub g' (view h') /\ own h' vs' ws' /\
        hid g' vs' /\ blind (List.length h) g g' /\ Forall2 (value_at g') ws' (done ++ ts)
    | Err _ => False
    | Panic m => exists h', alternates spare p opcodes slices k i vs h = (h', Panic m)
    end.
  Proof.
    induction k as [|k IH]; intros i g h vs ws done S O Hd Gp T F D.
    - cbn. exists h, vs, ws, g. rewrite app_nil_r. split; [reflexivity|]. split; [apply sub_refl|]. auto using blind_refl.
    - cbn [seq mapM alternates]. assert (G1 : forall h', sub g (view h') -> get_sexpr p h' = (h', Ok c)).
      { intros h' S'. unfold get_sexpr; rewrite run_bind, get_run; rewrite (S' _ _ Gp). reflexivity. }
      rewrite (mbind_ok _ _ _ _ _ (G1 h S)). rewrite (mbind_ok (alloc (CSExpr c)) _ h _ _ eq_refl). set (h1 := h ++ [CSExpr c]). set (v := List.length h).
      assert (Lv : v < List.length h1) by (unfold h1, v; rewrite app_length; cbn; lia).
      assert (gv : g v = None) by (eapply sub_fresh; eauto; unfold v; lia).
      destruct (index opcodes (idx i (List.length opcodes))) as [oc|e|m] eqn:Ei; [|unfold index in Ei; destruct (nth_error opcodes _); discriminate|].
      2: { rewrite (mbind_panic (lift _) _ h1 h1 m) by reflexivity. unfold buildsexpr at 1. rewrite Ei. cbn [bind]. eauto. }
      rewrite (mbind_ok (lift (Ok oc)) _ h1 h1 oc eq_refl). unfold buildsexpr at 1. rewrite Ei. cbn [bind].
      assert (G2 : get_sexpr v h1 = (h1, Ok c)).
      { unfold get_sexpr. rewrite run_bind, get_run. unfold h1, v. rewrite nth_error_app2, Nat.sub_diag by auto. reflexivity. }
      rewrite (mbind_ok _ _ _ _ _ G2), (mbind_ok _ _ _ _ _ (store_ok _ _ _ Lv)). set (h2 := put v (CSExpr (set_op c (HOpcode oc))) h1).
      assert (L2 : List.length h2 = List.length h1) by (apply put_length; exact Lv).
      assert (V2 : forall q, nth_error h2 q = if q =? v then Some (CSExpr (set_op c (HOpcode oc))) else nth_error h1 q) by (intros q; apply put_spec; exact Lv).
      assert (S2 : sub g (view h2)) by (apply sub_put; auto; apply sub_alloc; exact S).
      pose proof (pick_ok g slices expargs i F (view h2) h2 nil_slice [] S2 (sub_refl _) (own_nil _) (hid_nil _) (hid_nil _)) as P.
      destruct (mapM (fun alts => index alts (idx i (List.length alts))) expargs) as [ts|e|m]; cbn [bind]; [|contradiction|].
      2: { destruct P as (h' & P). rewrite (mbind_panic _ _ _ _ _ P). eauto. }
      destruct P as (h3 & args & aw & P & S3 & O3 & H3 & F3). rewrite (mbind_ok _ _ _ _ _ P).
      assert (V3 : nth_error h3 v = Some (CSExpr (set_op c (HOpcode oc)))) by (apply S3; rewrite V2, Nat.eqb_refl; reflexivity).
      assert (L3 : v < List.length h3) by (apply nth_error_Some; congruence).
      assert (G3 : get_sexpr v h3 = (h3, Ok (set_op c (HOpcode oc)))) by (unfold get_sexpr; rewrite run_bind, get_run; rewrite V3; reflexivity).
      rewrite (mbind_ok _ _ _ _ _ G3), (mbind_ok _ _ _ _ _ (store_ok _ _ _ L3)).
      set (c4 := set_args (set_op c (HOpcode oc)) args). set (h4 := put v (CSExpr c4) h3).
      assert (V4 : forall q, nth_error h4 q = if q =? v then Some (CSExpr c4) else nth_error h3 q) by (intros q; apply put_spec; exact L3).
      (* what [g] sees and what is new *)
      set (g4 := fun q => if q <? v then g q else nth_error h4 q).
      assert (S4 : sub g4 (view h4)).
      { intros q d. unfold g4. destruct (Nat.ltb_spec q v) as [Lq|]; [|auto]. intros Hq. rewrite V4. destruct (Nat.eqb_spec q v); [lia|]. apply S3, S2. exact Hq. }
      assert (B4 : blind (List.length h) g g4) by (intros q Lq Nq; unfold g4; rewrite (proj2 (Nat.ltb_lt _ _)) by exact Lq; exact Nq).
      assert (Sg : sub g g4).
      { intros q d Hq. unfold g4. destruct (Nat.ltb_spec q v) as [Lq|Lq]; [exact Hq|]. assert (g q = None) by (exact (sub_fresh _ _ _ S Lq)). congruence. }
      assert (Bv : sl_cap vs = 0 \/ sl_arr vs < v) by (exact (own_bound _ _ _ O)).
      assert (Hd4 : hid g4 vs).
      { destruct Bv as [Z|Z]; [left; exact Z|]. destruct Hd as [Hd|Hd]; [left; exact Hd|right]. unfold g4. rewrite (proj2 (Nat.ltb_lt _ _)) by exact Z. exact Hd. }
      assert (O4 : own h4 vs ws).
      { destruct Bv as [Z|Z].
        - destruct O as (Oa & Ob & [Oc|(rest & Ea & Ca)]); (split; [exact Oa|]); (split; [exact Ob|]); left; [exact Oc|]. split; [exact Z|]. rewrite Z in Ca. destruct ws; [reflexivity|discriminate].
        - apply (own_mono h); [|exact O]. intros d Hq. rewrite V4. destruct (Nat.eqb_spec (sl_arr vs) v); [lia|]. apply S3. rewrite V2. destruct (Nat.eqb_spec (sl_arr vs) v); [lia|].
          unfold h1. rewrite nth_error_app1 by (unfold v in Z; exact Z). exact Hq. }
      assert (Sl : slice_at g4 args aw).
      { cbn [app] in O3. destruct (own_slice _ _ _ O3) as [La [->|(a & b & Ea & Oa)]]; (split; [exact La|]); [left; reflexivity|].
        destruct aw as [|w0 aw0]; [left; reflexivity|]. right. exists a, b. split; [|exact Oa]. 
        assert (Na : sl_arr args <> v) by (intros X; rewrite X in Ea; congruence).
        unfold g4. rewrite V4. destruct (Nat.eqb_spec (sl_arr args) v); [contradiction|]. destruct (Nat.ltb_spec (sl_arr args) v) as [Lq|]; [|exact Ea]. exfalso.
        destruct H3 as [H3|H3].
        - destruct O3 as (_ & _ & [[_ X]|(rest & _ & X)]); [discriminate|]. rewrite H3 in X. discriminate.
        - apply nth_error_None in H3. lia. }
      set (new := SExp {| s_binding := s_binding s; s_op := Opcode oc; s_type := s_type s; s_auxint := s_auxint s; s_aux := s_aux s; s_args := ts;
        s_ellipsis := s_ellipsis s; s_trailing := s_trailing s |}).
      assert (Vn : value_at g4 (WSExpr (Some v)) new).
      { destruct T as (T1 & T2 & T3 & T4 & T5 & T6). apply (at_sexpr g4 v c4 _ aw); cbn [c4 set_args set_op h_binding h_op h_type h_auxint h_aux h_args h_ellipsis h_trailing s_binding s_op s_type s_auxint s_aux s_args s_ellipsis s_trailing]; auto.
        - unfold g4. rewrite V4, Nat.eqb_refl, Nat.ltb_irrefl. reflexivity.
        - reflexivity.
        - eapply expr_at_mono; eauto.
        - eapply expr_at_mono; eauto.
        - eapply values_mono; [exact Sg|exact F3]. }
      destruct (append_ok g4 h4 vs ws [WSExpr (Some v)] S4 O4 Hd4) as (h5 & vs5 & E5 & S5 & O5 & Hd5 & L5).
      assert (Lh5 : List.length h <= List.length h5) by (unfold h4 in L5; rewrite put_length in L5 by exact L3; unfold v in L3; lia).
      rewrite (mbind_ok _ _ _ _ _ E5).
      assert (T' : top_at g4 c s) by (destruct T as (T1 & T2 & T3 & T4 & T5 & T6); repeat split; auto; eapply expr_at_mono; eauto).
      assert (F' : Forall2 (alts_at g4) slices expargs) by (eapply Forall2_weak; [|exact F]; intros a b _; apply alts_mono; exact Sg).
      assert (D' : Forall2 (value_at g4) (ws ++ [WSExpr (Some v)]) (done ++ [new])) by (apply Forall2_app; [eapply values_mono; eauto|constructor; [exact Vn|constructor]]).
      specialize (IH (Datatypes.S i) g4 h5 vs5 (ws ++ [WSExpr (Some v)]) (done ++ [new]) S5 O5 Hd5 (Sg _ _ Gp) T' F' D').
      destruct (mapM (buildsexpr s opcodes expargs) (seq (Datatypes.S i) k)) as [us|e|m]; cbn [bind]; [|contradiction|exact IH].
      destruct IH as (h' & vs' & ws' & g' & E' & Sg' & Sh & O' & Hd' & B' & D''). exists h', vs', ws', g'. rewrite <- app_assoc in D''.
      split; [exact E'|]. split; [eapply sub_trans; eauto|]. split; [exact Sh|]. split; [exact O'|]. split; [exact Hd'|]. split; [exact (blind_trans _ _ _ _ _ Lh5 B4 B')|exact D''].
  Qed.

  (** From a heap seen through [g], [m] does what [r] says; the result is seen
      through an extension of [g] by new cells. *)
  Definition refines {A B} (R : (nat -> option cell) -> A -> B -> Prop) (g : nat -> option cell) (h : heap) (m : M A) (r : res B) : Prop :=
    match r with
    | Ok b => exists h' a g', m h = (h', Ok a) /\ sub g g' /\ sub g' (view h') /\ blind (List.length h) g g' /\ List.length h <= List.length h' /\ R g' a b
    | Err e => exists h', m h = (h', Err e)
    | Panic x => exists h', m h = (h', Panic x)
    end.

  Lemma args_loop_ok expand args : forall ws2 ts ws1 n g h, sub g (view h) ->
    Forall (fun t => forall g h w, sub g (view h) -> value_at g w t -> refines alts_at g h (expand w) (expandvalue t)) ts ->
    slice_at g args (ws1 ++ ws2) -> Forall2 (value_at g) ws2 ts ->
    refines (fun g' (x : nat * list slice) (y : nat * list (list value)) => fst x = fst y /\ Forall2 (alts_at g') (snd x) (snd y)) g h
      (h_args_loop expand args (List.length ws2) (List.length ws1) n) (expandargs expandvalue n ts).
  Proof.
    induction ws2 as [|w ws2 IH]; intros ts ws1 n g h S He Sl F.
    - inversion F; subst. exists h, (n, []), g. split; [reflexivity|]. split; [apply sub_refl|]. split; [exact S|]. split; [apply blind_refl|]. split; [auto|]. split; [reflexivity|constructor].
    - destruct ts as [|t ts]; [inversion F|]. assert (F2c := F); inversion F2c as [|? ? ? ? Vw F']; subst; clear F F2c; rename F' into F. apply Forall_cons_iff in He. destruct He as [Ht He].
      cbn [List.length h_args_loop expandargs].
      assert (A : at_ args (List.length ws1) h = (h, Ok w)).
      { eapply at_ok; [exact S|exact Sl|]. rewrite nth_error_app2, Nat.sub_diag by auto. reflexivity. }
      unfold refines. rewrite (mbind_ok _ _ _ _ _ A). pose proof (Ht g h w S Vw) as X. unfold refines in X.
      destruct (expandvalue t) as [alts|e|x]; cbn [bind].
      2: { destruct X as (h' & X). rewrite (mbind_err _ _ _ _ _ X). eauto. }
      2: { destruct X as (h' & X). rewrite (mbind_panic _ _ _ _ _ X). eauto. }
      destruct X as (h' & ea & g1 & X & S1 & Sv & B1 & L1 & Al). rewrite (mbind_ok _ _ _ _ _ X). rewrite (alts_len _ _ _ Al).
      destruct (resolvecounts n (List.length alts)) as [n'|e|x]; cbn [bind].
      2: { rewrite (mbind_err (lift _) _ h' h' e) by reflexivity. eauto. }
      2: { rewrite (mbind_panic (lift _) _ h' h' x) by reflexivity. eauto. }
      rewrite (mbind_ok (lift _) _ h' h' n') by reflexivity.
      specialize (IH ts (ws1 ++ [w]) n' g1 h' Sv He). rewrite <- app_assoc, app_length in IH. cbn [List.length app] in IH. rewrite Nat.add_1_r in IH.
      specialize (IH (slice_at_mono _ _ S1 _ _ Sl) (values_mono _ _ S1 _ _ F)). unfold refines in IH.
      destruct (expandargs expandvalue n' ts) as [[n'' ex]|e|x]; cbn [bind].
      2: { destruct IH as (h2 & IH). rewrite (mbind_err _ _ _ _ _ IH). eauto. }
      2: { destruct IH as (h2 & IH). rewrite (mbind_panic _ _ _ _ _ IH). eauto. }
      destruct IH as (h2 & [n2 sls] & g2 & IH & S2 & Sv2 & B2 & L2 & E2 & F2). cbn [fst snd] in E2, F2. subst n2. rewrite (mbind_ok _ _ _ _ _ IH). cbn [ret fst snd].
      eexists h2, _, g2. split; [reflexivity|]. split; [exact (sub_trans _ _ _ S1 S2)|]. split; [exact Sv2|]. split; [exact (blind_trans _ _ _ _ _ L1 B1 B2)|]. split; [lia|].
      split; [reflexivity|]. constructor; [|exact F2]. eapply alts_mono; eauto.
  Qed.

  Lemma literal_ok g h ws : sub g (view h) -> exists h' sl g', literal ws h = (h', Ok sl) /\ sub g g' /\ sub g' (view h') /\ blind (List.length h) g g' /\ List.length h <= List.length h' /\
    slice_at g' sl ws.
  Proof.
    intros S. eexists _, _, (with_cell g (List.length h) (nth_error (h ++ [CArr ws]) (List.length h))). split; [reflexivity|].
    split; [apply with_new; eapply sub_fresh; eauto|]. split; [apply with_view, sub_alloc, S|]. split; [apply with_blind; auto|]. split; [rewrite app_length; lia|].
    split; [reflexivity|]. right. exists [], []. cbn [sl_arr sl_off app]. rewrite app_nil_r. unfold with_cell. rewrite Nat.eqb_refl.
    rewrite nth_error_app2, Nat.sub_diag by auto. split; reflexivity.
  Qed.
  Lemma make_ok g h z n : sub g (view h) -> exists h' sl, make z n h = (h', Ok sl) /\ sub g (view h') /\ own h' sl [] /\ hid g sl /\ mine h sl /\ keeps h h'.
  Proof.
    intros S. eexists _, _. split; [reflexivity|]. split; [apply sub_alloc, S|]. cbn [sl_arr]. split; [|split; [|split]].
    - split; [reflexivity|]. split; [reflexivity|]. right. exists (repeat z n). cbn [sl_arr sl_cap app]. rewrite nth_error_app2, Nat.sub_diag by auto. rewrite repeat_length. split; reflexivity.
    - right. cbn [sl_arr]. eapply sub_fresh; eauto.
    - right. cbn [sl_arr]. auto.
    - exists [CArr (repeat z n)]. reflexivity.
  Qed.
  (** A finished slice joins the view. *)
  Lemma own_view g h n sl ws : sub g (view h) -> own h sl ws -> hid g sl -> sl_cap sl = 0 \/ n <= sl_arr sl ->
    exists g', sub g g' /\ sub g' (view h) /\ blind n g g' /\ slice_at g' sl ws.
  Proof.
    intros S O Hd Mn. destruct (Nat.eq_dec (sl_cap sl) 0) as [Z|Z].
    - exists g. split; [apply sub_refl|]. split; [exact S|]. split; [apply blind_refl|]. destruct O as (Oa & Ob & [[_ ->]|(rest & Ea & Ca)]); (split; [exact Ob|]); left; [reflexivity|].
      rewrite Z in Ca. destruct ws; [reflexivity|discriminate].
    - destruct Hd as [Hd|Hd]; [contradiction|]. destruct Mn as [Mn|Mn]; [contradiction|]. exists (with_cell g (sl_arr sl) (nth_error h (sl_arr sl))).
      split; [apply with_new; exact Hd|]. split; [apply with_view; exact S|]. split; [apply with_blind; exact Mn|].
      destruct (own_slice _ _ _ O) as [L [E|(a & b & E & La)]]; (split; [exact L|]); [left; exact E|right]. exists a, b. unfold with_cell. rewrite Nat.eqb_refl. auto.
  Qed.

  Lemma expandvalue_ok t : forall fuel g h w, height t <= fuel -> sub g (view h) -> value_at g w t -> refines alts_at g h (h_expandvalue spare fuel w) (expandvalue t).
  Proof.
    induction t as [s IH|e|x|] using value_ind'; intros [|fuel] g h w Hf S V; try (cbn in Hf; lia); inversion V; subst; cbn [h_expandvalue expandvalue].
    2: { destruct (literal_ok g h [WExpr (Some p)] S) as (h' & sl & g' & E & S1 & S2 & B & L & Sl). exists h', sl, g'. split; [exact E|]. split; [exact S1|]. split; [exact S2|]. split; [exact B|].
         split; [exact L|]. eexists. split; [exact Sl|]. constructor; [|constructor]. constructor. apply S1. assumption. }
    2: { destruct (literal_ok g h [WVar x] S) as (h' & sl & g' & E & S1 & S2 & B & L & Sl). exists h', sl, g'. split; [exact E|]. split; [exact S1|]. split; [exact S2|]. split; [exact B|].
         split; [exact L|]. eexists. split; [exact Sl|]. constructor; [constructor|constructor]. }
    2: { exists h. reflexivity. }
    assert (Gc : forall h', sub g (view h') -> get_sexpr p h' = (h', Ok c)) by (intros h' S'; unfold get_sexpr; rewrite run_bind, get_run; rewrite (S' _ _ H0); reflexivity).
    unfold refines. rewrite (mbind_ok _ _ _ _ _ (Gc h S)).
    assert (Op : h_expandop (h_op c) h = (h, expandop (s_op s))).
    { destruct (h_op c), (s_op s); cbn in H2 |- *; try contradiction; [subst; reflexivity| |reflexivity]. apply S in H2. rewrite H2. reflexivity. }
    destruct (expandop (s_op s)) as [opcodes|e|x]; cbn [bind].
    2: { rewrite (mbind_err _ _ _ _ _ Op). eauto. }
    2: { rewrite (mbind_panic _ _ _ _ _ Op). eauto. }
    rewrite (mbind_ok _ _ _ _ _ Op).
    assert (IH' : Forall (fun t => forall g h w, sub g (view h) -> value_at g w t -> refines alts_at g h (h_expandvalue spare fuel w) (expandvalue t)) (s_args s)).
    { rewrite Forall_forall in IH |- *. intros t I g0 h0 w0. apply IH; [exact I|]. cbn [height] in Hf.
      assert (X : height t <= fold_right Nat.max 0 (map height (s_args s))).
      { clear -I. induction (s_args s) as [|a l IHl]; [contradiction|]. cbn [map fold_right]. destruct I as [<-|I]; [lia|]. specialize (IHl I). lia. }
      lia. }
    pose proof (args_loop_ok (h_expandvalue spare fuel) (h_args c) ws (s_args s) [] (List.length opcodes) g h S IH' H6 H7) as A. cbn [List.length] in A.
    assert (Lw : sl_len (h_args c) = List.length ws) by (apply H6). rewrite Lw. unfold refines in A.
    change (fun a => expandvalue a) with expandvalue.
    destruct (expandargs expandvalue (List.length opcodes) (s_args s)) as [[n ex]|e|x]; cbn [bind].
    2: { destruct A as (h' & A). rewrite (mbind_err _ _ _ _ _ A). eauto. }
    2: { destruct A as (h' & A). rewrite (mbind_panic _ _ _ _ _ A). eauto. }
    destruct A as (h1 & [n1 sls] & g1 & A & S1 & Sv1 & B1 & L1 & En & Fn). cbn [fst snd] in En, Fn. subst n1. rewrite (mbind_ok _ _ _ _ _ A). cbn [fst snd].
    destruct (n =? 1) eqn:N1.
    - destruct (literal_ok g1 h1 [WSExpr (Some p)] Sv1) as (h' & sl & g' & E & S2 & Sv2 & B2 & L2 & Sl). exists h', sl, g'. split; [exact E|]. split; [exact (sub_trans _ _ _ S1 S2)|].
      split; [exact Sv2|]. split; [exact (blind_trans _ _ _ _ _ L1 B1 B2)|]. split; [lia|]. eexists. split; [exact Sl|].
      constructor; [|constructor]. eapply value_at_mono; [|exact V]. exact (sub_trans _ _ _ S1 S2).
    - destruct (make_ok g1 h1 WNil n Sv1) as (h2 & vs & E2 & S2 & O2 & Hd2 & Mn & K2). rewrite (mbind_ok _ _ _ _ _ E2).
      pose proof (alternates_ok p c s opcodes ex sls n 0 g1 h2 vs [] [] S2 O2 Hd2 (S1 _ _ H0)) as Q.
      assert (T : top_at g1 c s) by (repeat split; auto; eapply expr_at_mono; eauto).
      specialize (Q T Fn (Forall2_nil _)). destruct (mapM (buildsexpr s opcodes ex) (seq 0 n)) as [ts|e|x]; [|contradiction|exact Q].
      destruct Q as (h' & vs' & ws' & g' & Q & Sg & Sh & O' & Hd' & Bg & D).
      pose proof (safe_alternates spare h1 p opcodes sls n 0 vs Mn h2 K2) as [K' M']. rewrite Q in K', M'. cbn [fst snd] in K', M'. specialize (M' vs' eq_refl).
      pose proof (keeps_len _ _ K2) as L2. pose proof (keeps_len _ _ K') as L'.
      destruct (own_view g' h' (List.length h1) vs' ws' Sh O' Hd' M') as (g2 & Sg2 & Sh2 & B2 & Sl2).
      exists h', vs', g2. split; [exact Q|]. split; [exact (sub_trans _ _ _ S1 (sub_trans _ _ _ Sg Sg2))|]. split; [exact Sh2|].
      split; [|split; [lia|]]. { apply (blind_trans _ _ _ _ _ L1 B1). intros q Lq Nq. apply B2; [exact Lq|]. apply Bg; [lia|exact Nq]. }
      exists ws'. split; [exact Sl2|]. eapply values_mono; [exact Sg2|exact D].
  Qed.

  (** *** Rules *)
  Definition rules_at g (sl : slice) (rs : list rule) : Prop := exists ws, slice_at g sl ws /\ Forall2 (rule_at g) ws rs.
  Definition rest_at g (c : hrule) (r : rule) : Prop := expr_at g (h_cond c) (r_cond r) /\ h_block c = r_block r.
  Definition build_rule (r : rule) (ms rs : list value) (i : nat) : res rule :=
    bind (index ms (idx i (List.length ms))) (fun m => bind (index rs (idx i (List.length rs))) (fun x =>
    Ok {| r_match := m; r_cond := r_cond r; r_block := r_block r; r_result := x |})).

  Lemma new_rules_ok p c r ms rs mt rt : forall k i g h rules ws done,
    sub g (view h) -> own h rules ws -> hid g rules -> g p = Some (CRule c) -> rest_at g c r -> alts_at g ms mt -> alts_at g rs rt -> Forall2 (rule_at g) ws done ->
    match mapM (build_rule r mt rt) (seq i k) with
    | Ok ts => exists h' sl' ws' g', new_rules spare p ms rs k i rules h = (h', Ok sl') /\ sub g g' /\ sub g' (view h') /\ own h' sl' ws' /\
        hid g' sl' /\ blind (List.length h) g g' /\ Forall2 (rule_at g') ws' (done ++ ts)
    | Err _ => False
    | Panic m => exists h', new_rules spare p ms rs k i rules h = (h', Panic m)
    end.
  Proof.
    induction k as [|k IH]; intros i g h rules ws done S O Hd Gp T Am Ar D.
    - cbn. exists h, rules, ws, g. rewrite app_nil_r. split; [reflexivity|]. split; [apply sub_refl|]. auto using blind_refl.
    - cbn [seq mapM new_rules]. rewrite (alts_len _ _ _ Am), (alts_len _ _ _ Ar).
      pose proof (index_at g h ms mt (idx i (List.length mt)) S Am) as Xm. pose proof (index_at g h rs rt (idx i (List.length rt)) S Ar) as Xr. unfold build_rule at 1.
      destruct (index mt (idx i (List.length mt))) as [m|e|x]; cbn [bind]; [|contradiction|rewrite (mbind_panic _ _ _ _ _ Xm); eauto].
      destruct Xm as (wm & Em & Vm). rewrite (mbind_ok _ _ _ _ _ Em).
      assert (Gc : get_rule p h = (h, Ok c)) by (unfold get_rule; rewrite run_bind, get_run; rewrite (S _ _ Gp); reflexivity). rewrite (mbind_ok _ _ _ _ _ Gc).
      destruct (index rt (idx i (List.length rt))) as [x|e|x]; cbn [bind]; [|contradiction|rewrite (mbind_panic _ _ _ _ _ Xr); eauto].
      destruct Xr as (wx & Ex & Vx). rewrite (mbind_ok _ _ _ _ _ Ex).
      set (nc := CRule {| h_match := wm; h_cond := h_cond c; h_block := h_block c; h_result := wx |}). rewrite (mbind_ok (alloc nc) _ h _ _ eq_refl).
      set (h1 := h ++ [nc]). set (v := List.length h).
      assert (gv : g v = None) by (eapply sub_fresh; eauto; unfold v; lia).
      assert (Ev : nth_error h1 v = Some nc) by (unfold h1, v; rewrite nth_error_app2, Nat.sub_diag by auto; reflexivity).
      set (g1 := with_cell g v (nth_error h1 v)).
      assert (S01 : sub g g1) by (apply with_new; exact gv).
      assert (S1 : sub g1 (view h1)) by (apply with_view, sub_alloc, S).
      assert (B1 : blind (List.length h) g g1) by (apply with_blind; auto).
      assert (O1 : own h1 rules ws).
      { apply (own_mono h); [|exact O]. intros d H. unfold h1. rewrite nth_error_app1; [exact H|]. apply nth_error_Some. congruence. }
      assert (Hd1 : hid g1 rules).
      { destruct (own_bound _ _ _ O) as [Z|Z]; [left; exact Z|]. destruct Hd as [Hd|Hd]; [left; exact Hd|right]. unfold g1, with_cell. destruct (Nat.eqb_spec (sl_arr rules) v); [unfold v in *; lia|exact Hd]. }
      destruct (append_ok g1 h1 rules ws [WRule (Some v)] S1 O1 Hd1) as (h2 & sl2 & E2 & S2 & O2 & Hd2 & L2). rewrite (mbind_ok _ _ _ _ _ E2).
      assert (Lh2 : List.length h <= List.length h2) by (unfold h1 in L2; rewrite app_length in L2; lia).
      set (nr := {| r_match := m; r_cond := r_cond r; r_block := r_block r; r_result := x |}).
      assert (Rn : rule_at g1 (WRule (Some v)) nr).
      { exists v. eexists. split; [reflexivity|]. split; [unfold g1, with_cell; rewrite Nat.eqb_refl; exact Ev|]. cbn [h_match h_cond h_block h_result nr r_match r_cond r_block r_result].
        destruct T as [T1 T2]. split; [eapply value_at_mono; eauto|]. split; [eapply expr_at_mono; eauto|]. split; [exact T2|eapply value_at_mono; eauto]. }
      assert (T' : rest_at g1 c r) by (destruct T; split; auto; eapply expr_at_mono; eauto).
      specialize (IH (Datatypes.S i) g1 h2 sl2 (ws ++ [WRule (Some v)]) (done ++ [nr]) S2 O2 Hd2 (S01 _ _ Gp) T' (alts_mono _ _ _ _ S01 Am) (alts_mono _ _ _ _ S01 Ar)).
      specialize (IH (Forall2_app (rules_mono _ _ S01 _ _ D) (Forall2_cons _ _ Rn (Forall2_nil _)))).
      destruct (mapM (build_rule r mt rt) (seq (Datatypes.S i) k)) as [us|e|y]; cbn [bind]; [|contradiction|exact IH].
      destruct IH as (h' & sl' & ws' & g' & E' & Sg & Sh & O' & Hd' & B' & D'). exists h', sl', ws', g'. rewrite <- app_assoc in D'. split; [exact E'|]. split; [eapply sub_trans; eauto|].
      split; [exact Sh|]. split; [exact O'|]. split; [exact Hd'|]. split; [exact (blind_trans _ _ _ _ _ Lh2 B1 B')|exact D'].
  Qed.

  Lemma expandrule_ok r fuel g h w : rule_height r <= fuel -> sub g (view h) -> rule_at g w r ->
    exists p, w = WRule p /\ refines rules_at g h (h_expandrule spare fuel p) (expandrule r).
  Proof.
    intros Hf S (p & c & -> & Gp & Vm & Vc & Eb & Vr). exists (Some p). split; [reflexivity|]. unfold refines, expandrule. cbn [h_expandrule].
    assert (Gc : forall h', sub g (view h') -> get_rule p h' = (h', Ok c)) by (intros h' S'; unfold get_rule; rewrite run_bind, get_run; rewrite (S' _ _ Gp); reflexivity).
    rewrite (mbind_ok _ _ _ _ _ (Gc h S)). unfold rule_height in Hf.
    pose proof (expandvalue_ok (r_match r) fuel g h (h_match c) ltac:(lia) S Vm) as A. unfold refines in A.
    destruct (expandvalue (r_match r)) as [mt|e|x]; cbn [bind].
    2: { destruct A as (h' & A). rewrite (mbind_err _ _ _ _ _ A). eauto. }
    2: { destruct A as (h' & A). rewrite (mbind_panic _ _ _ _ _ A). eauto. }
    destruct A as (h1 & ms & g1 & A & S1 & Sv1 & B1 & L1 & Am). rewrite (mbind_ok _ _ _ _ _ A), (mbind_ok _ _ _ _ _ (Gc h1 (sub_trans _ _ _ S1 Sv1))).
    pose proof (expandvalue_ok (r_result r) fuel g1 h1 (h_result c) ltac:(lia) Sv1 (value_at_mono _ _ S1 _ _ Vr)) as B. unfold refines in B.
    destruct (expandvalue (r_result r)) as [rt|e|x]; cbn [bind].
    2: { destruct B as (h' & B). rewrite (mbind_err _ _ _ _ _ B). eauto. }
    2: { destruct B as (h' & B). rewrite (mbind_panic _ _ _ _ _ B). eauto. }
    destruct B as (h2 & rs & g2 & B & S2 & Sv2 & B2 & L2 & Ar). rewrite (mbind_ok _ _ _ _ _ B). pose proof (alts_mono _ _ _ _ S2 Am) as Am2.
    rewrite (alts_len _ _ _ Am), (alts_len _ _ _ Ar).
    destruct (resolvecounts (List.length mt) (List.length rt)) as [n|e|x]; cbn [bind].
    2: { rewrite (mbind_err (lift _) _ h2 h2 e) by reflexivity. eauto. }
    2: { rewrite (mbind_panic (lift _) _ h2 h2 x) by reflexivity. eauto. }
    rewrite (mbind_ok (lift _) _ h2 h2 n) by reflexivity. pose proof (sub_trans _ _ _ S1 S2) as S12. pose proof (blind_trans _ _ _ _ _ L1 B1 B2) as B12. destruct (n =? 1).
    - destruct (literal_ok g2 h2 [WRule (Some p)] Sv2) as (h' & sl & g' & E & S3 & Sv3 & B3 & L3 & Sl). exists h', sl, g'. split; [exact E|]. split; [exact (sub_trans _ _ _ S12 S3)|].
      split; [exact Sv3|]. split; [apply (blind_trans _ (List.length h2) _ g2); [lia|exact B12|exact B3]|]. split; [lia|]. eexists. split; [exact Sl|].
      constructor; [|constructor]. eapply rule_at_mono; [exact (sub_trans _ _ _ S12 S3)|]. exists p, c. auto 10.
    - destruct (make_ok g2 h2 (WRule None) n Sv2) as (h3 & sl & E3 & S3 & O3 & Hd3 & Mn & K3). rewrite (mbind_ok _ _ _ _ _ E3).
      pose proof (new_rules_ok p c r ms rs mt rt n 0 g2 h3 sl [] [] S3 O3 Hd3 (S12 _ _ Gp) (conj (expr_at_mono _ _ S12 _ _ Vc) Eb) Am2 Ar (Forall2_nil _)) as Q.
      change (mapM (fun i => bind (index mt (idx i (List.length mt))) (fun m => bind (index rt (idx i (List.length rt))) (fun x =>
        Ok {| r_match := m; r_cond := r_cond r; r_block := r_block r; r_result := x |}))) (seq 0 n)) with (mapM (build_rule r mt rt) (seq 0 n)).
      destruct (mapM (build_rule r mt rt) (seq 0 n)) as [ts|e|x]; [|contradiction|exact Q].
      destruct Q as (h' & sl' & ws' & g' & Q & Sg & Sh & O' & Hd' & Bg & D).
      pose proof (safe_new_rules spare h2 p ms rs n 0 sl Mn h3 K3) as [K' M']. rewrite Q in K', M'. cbn [fst snd] in K', M'. specialize (M' sl' eq_refl).
      pose proof (keeps_len _ _ K3) as L3. pose proof (keeps_len _ _ K') as L'.
      destruct (own_view g' h' (List.length h2) sl' ws' Sh O' Hd' M') as (g3 & Sg3 & Sh3 & B3 & Sl3).
      exists h', sl', g3. split; [exact Q|]. split; [exact (sub_trans _ _ _ S12 (sub_trans _ _ _ Sg Sg3))|]. split; [exact Sh3|].
      split; [|split; [lia|]]. { apply (blind_trans _ (List.length h2) _ g2); [lia|exact B12|]. intros q Lq Nq. apply B3; [exact Lq|]. apply Bg; [lia|exact Nq]. }
      exists ws'. split; [exact Sl3|]. eapply rules_mono; [exact Sg3|exact D].
  Qed.

  Lemma elements_ok g h sl ws : sub g (view h) -> slice_at g sl ws -> elements sl h = (h, Ok ws).
  Proof.
    intros S [L [->|(a & b & E & La)]]; unfold elements; [rewrite L; reflexivity|]. apply S in E. destruct (Nat.eqb_spec (sl_len sl) 0) as [Z|Z]; [destruct ws; [reflexivity|rewrite L in Z; discriminate]|].
    unfold get_arr. rewrite !run_bind, get_run, E. cbn [ret run]. rewrite <- La, L. rewrite skipn_app, skipn_all, Nat.sub_diag. cbn [app skipn].
    rewrite firstn_app, firstn_all, Nat.sub_diag, firstn_O, app_nil_r. reflexivity.
  Qed.

  Lemma expandrules_ok fuel rules : forall ws2 rs ws1 g h exps ws done,
    Forall (fun r => rule_height r <= fuel) rs -> slice_at g rules (ws1 ++ ws2) -> Forall2 (rule_at g) ws2 rs ->
    sub g (view h) -> own h exps ws -> hid g exps -> Forall2 (rule_at g) ws done ->
    match expandrules rs with
    | Ok ts => exists h' sl' ws' g', h_expandrules spare fuel rules (List.length ws2) (List.length ws1) exps h = (h', Ok sl') /\ sub g g' /\ sub g' (view h') /\
        own h' sl' ws' /\ hid g' sl' /\ blind (List.length h) g g' /\ Forall2 (rule_at g') ws' (done ++ ts)
    | Err e => exists h', h_expandrules spare fuel rules (List.length ws2) (List.length ws1) exps h = (h', Err e)
    | Panic m => exists h', h_expandrules spare fuel rules (List.length ws2) (List.length ws1) exps h = (h', Panic m)
    end.
  Proof.
    induction ws2 as [|w ws2 IH]; intros rs ws1 g h exps ws done Hf Sl F S O Hd D.
    - inversion F; subst. exists h, exps, ws, g. rewrite app_nil_r. split; [reflexivity|]. split; [apply sub_refl|]. auto using blind_refl.
    - destruct rs as [|r rs]; [inversion F|]. assert (F2c := F); inversion F2c as [|? ? ? ? Vw F']; subst; clear F F2c; rename F' into F. apply Forall_cons_iff in Hf. destruct Hf as [Hr Hf].
      cbn [List.length h_expandrules expandrules].
      assert (A : at_ rules (List.length ws1) h = (h, Ok w)) by (eapply at_ok; [exact S|exact Sl|]; rewrite nth_error_app2, Nat.sub_diag by auto; reflexivity).
      rewrite (mbind_ok _ _ _ _ _ A).
      destruct (expandrule_ok r fuel g h w Hr S Vw) as (p & -> & X). unfold refines in X.
      destruct (expandrule r) as [ts|e|x]; cbn [bind].
      2: { destruct X as (h' & X). rewrite (mbind_err _ _ _ _ _ X). eauto. }
      2: { destruct X as (h' & X). rewrite (mbind_panic _ _ _ _ _ X). eauto. }
      destruct X as (h1 & sl & g1 & X & S1 & Sv1 & B1 & L1 & wt & Slt & Rt). rewrite (mbind_ok _ _ _ _ _ X), (mbind_ok _ _ _ _ _ (elements_ok _ _ _ _ Sv1 Slt)).
      pose proof (safe_expandrule spare h fuel p h (keeps_refl h)) as [K1 _]. rewrite X in K1. cbn [fst] in K1.
      pose proof (own_mono h h1 exps ws (fun d Hq => keeps_sub _ _ K1 _ _ Hq) O) as O1.
      assert (Hd1 : hid g1 exps).
      { destruct (own_bound _ _ _ O) as [Z|Z]; [left; exact Z|]. destruct Hd as [Hd|Hd]; [left; exact Hd|right]. apply B1; assumption. }
      destruct (append_ok g1 h1 exps ws wt Sv1 O1 Hd1) as (h2 & sl2 & E2 & S2 & O2 & Hd2 & L2). rewrite (mbind_ok _ _ _ _ _ E2).
      specialize (IH rs (ws1 ++ [WRule p]) g1 h2 sl2 (ws ++ wt) (done ++ ts) Hf). rewrite <- app_assoc, app_length in IH. cbn [List.length app] in IH. rewrite Nat.add_1_r in IH.
      specialize (IH (slice_at_mono _ _ S1 _ _ Sl) (rules_mono _ _ S1 _ _ F) S2 O2 Hd2 (Forall2_app (rules_mono _ _ S1 _ _ D) Rt)).
      destruct (expandrules rs) as [us|e|x]; cbn [bind]; [|exact IH|exact IH].
      destruct IH as (h' & sl' & ws' & g' & E' & Sg & Sh & O' & Hd' & B' & D'). exists h', sl', ws', g'. rewrite <- app_assoc in D'. split; [exact E'|]. split; [exact (sub_trans _ _ _ S1 Sg)|].
      split; [exact Sh|]. split; [exact O'|]. split; [exact Hd'|]. split; [|exact D']. apply (blind_trans _ (List.length h2) _ g1); [lia|exact B1|exact B'].
  Qed.
End Refine.

(** ** Trees do not reach file cells *)
Definition nofile (g : nat -> option cell) : nat -> option cell := fun q => match g q with Some (CFile _) => None | o => o end.
Lemma nofile_sub g : sub (nofile g) g.
Proof. intros q c. unfold nofile. destruct (g q) as [[]|]; congruence. Qed.
Section Nofile.
  Variable g : nat -> option cell.
  Lemma nofile_is q c : g q = Some c -> (forall s, c <> CFile s) -> nofile g q = Some c.
  Proof. intros E N. unfold nofile. rewrite E. destruct c; congruence. Qed.
  Ltac nf := apply nofile_is; [assumption|discriminate].
  Lemma expr_at_nofile p o : expr_at g p o -> expr_at (nofile g) p o.
  Proof. destruct p, o; cbn; auto. intros. nf. Qed.
  Lemma op_at_nofile x o : op_at g x o -> op_at (nofile g) x o.
  Proof. destruct x, o; cbn; auto. intros. nf. Qed.
  Lemma slice_at_nofile sl ws : slice_at g sl ws -> slice_at (nofile g) sl ws.
  Proof. intros [L [E|(a & b & E & La)]]; (split; [exact L|]); [left; exact E|right]. exists a, b. split; [nf|exact La]. Qed.
  Lemma value_at_nofile v : forall w, value_at g w v -> value_at (nofile g) w v.
  Proof.
    induction v as [s IH|e|x|] using value_ind'; intros w H; inversion H; subst; try (constructor; try nf; fail).
    econstructor; eauto using expr_at_nofile, op_at_nofile, slice_at_nofile; [nf|]. eapply Forall2_weak; [|eassumption]. intros a b I X. rewrite Forall_forall in IH. apply IH; assumption.
  Qed.
  Lemma rule_at_nofile w r : rule_at g w r -> rule_at (nofile g) w r.
  Proof. intros (p & c & -> & E & A & B & C & D). exists p, c. split; [reflexivity|]. split; [nf|]. auto using expr_at_nofile, value_at_nofile. Qed.
  Lemma rules_nofile ws rs : Forall2 (rule_at g) ws rs -> Forall2 (rule_at (nofile g)) ws rs.
  Proof. apply Forall2_weak. intros a b _. apply rule_at_nofile. Qed.
End Nofile.

(** ** The pass *)
Lemma heights_le rs fuel : fold_right Nat.max 0 (map rule_height rs) <= fuel -> Forall (fun r => rule_height r <= fuel) rs.
Proof. induction rs as [|r rs IH]; cbn [map fold_right]; intros L; constructor; [lia|apply IH; lia]. Qed.

Lemma expand_ok spare fuel f h F : file_at (view h) f F -> file_height F <= fuel ->
  match ExpandAlternates F with
  | Ok (F', None) => exists h', h_ExpandAlternates spare fuel (Some f) h = (h', Ok tt) /\ file_at (view h') f F'
  | Ok (F', Some e) => exists h', h_ExpandAlternates spare fuel (Some f) h = (h', Err e) /\ file_at (view h') f F'
  | Err e => False
  | Panic m => exists h', h_ExpandAlternates spare fuel (Some f) h = (h', Panic m) /\ file_at (view h') f F
  end.
Proof.
  intros At Hh. pose proof At as (sl & ws & Gf & Sl & Fw). set (g := nofile (view h)).
  assert (S : sub g (view h)) by apply nofile_sub.
  assert (Keep : forall h' r, h_ExpandAlternates spare fuel (Some f) h = (h', r) -> (forall u, r <> Ok u) -> file_at (view h') f F).
  { intros h' r E N. pose proof (proj1 (expand_frame _ _ _ _ _ _ E)) as Fr. assert (Sh : sub (view h) (view h')) by (intros p c Hp; apply Fr; auto).
    exists sl, ws. split; [apply Sh; exact Gf|]. split; [eapply slice_at_mono; eauto|eapply rules_mono; eauto]. }
  assert (X : h_ExpandAlternates spare fuel (Some f) h = (do rs <- h_expandrules spare fuel sl (sl_len sl) 0 nil_slice; store f (CFile rs)) h).
  { cbn [h_ExpandAlternates]. rewrite (mbind_ok (get f) _ h h (CFile sl)) by (rewrite get_run, Gf; reflexivity). reflexivity. }
  pose proof (expandrules_ok spare fuel sl ws (f_rules F) [] g h nil_slice [] [] (heights_le _ _ Hh) (slice_at_nofile _ _ _ Sl) (rules_nofile _ _ _ Fw) S (own_nil h) (hid_nil g) (Forall2_nil _)) as Q.
  cbn [List.length] in Q. assert (Ls : sl_len sl = List.length ws) by apply Sl. rewrite <- Ls in Q. unfold ExpandAlternates.
  destruct (expandrules (f_rules F)) as [ts|e|x].
  - destruct Q as (h1 & sl1 & ws1 & g1 & Q & Sg & Sv & O1 & Hd1 & B1 & D1).
    pose proof (safe_expandrules spare h fuel sl (sl_len sl) 0 nil_slice (mine_nil h) h (keeps_refl h)) as [K M']. rewrite Q in K, M'. cbn [fst snd] in K, M'. specialize (M' sl1 eq_refl).
    destruct (own_view g1 h1 (List.length h) sl1 ws1 Sv O1 Hd1 M') as (g2 & Sg2 & Sh2 & B2 & Sl2).
    assert (Lf : f < List.length h) by (apply nth_error_Some; congruence). pose proof (keeps_len _ _ K) as Lk.
    assert (N : g2 f = None) by (apply B2; [exact Lf|]; apply B1; [exact Lf|]; unfold g, nofile; rewrite Gf; reflexivity).
    exists (put f (CFile sl1) h1). split.
    + rewrite X, (mbind_ok _ _ _ _ _ Q). apply store_ok. lia.
    + assert (S3 : sub g2 (view (put f (CFile sl1) h1))) by (apply sub_put; auto; lia).
      exists sl1, ws1. split; [rewrite put_spec, Nat.eqb_refl by lia; reflexivity|]. split; [eapply slice_at_mono; eauto|]. eapply rules_mono; [exact (sub_trans _ _ _ Sg2 S3)|exact D1].
  - destruct Q as (h1 & Q). exists h1. assert (E : h_ExpandAlternates spare fuel (Some f) h = (h1, Err e)) by (rewrite X; apply mbind_err; exact Q).
    split; [exact E|]. eapply Keep; [exact E|discriminate].
  - destruct Q as (h1 & Q). exists h1. assert (E : h_ExpandAlternates spare fuel (Some f) h = (h1, Panic x)) by (rewrite X; apply mbind_panic; exact Q).
    split; [exact E|]. eapply Keep; [exact E|discriminate].
Qed.

(** Whatever was reachable before still is, and is the same. *)
Lemma expand_keeps spare fuel f h h' r : h_ExpandAlternates spare fuel f h = (h', r) ->
  sub (nofile (view h)) (view h').
Proof.
  intros E p c Hp. pose proof (expand_frame _ _ _ _ _ _ E) as [A B]. pose proof (nofile_sub _ _ _ Hp) as Hq.
  destruct r as [u|e|x].
  - apply A; [exact Hq|]. left. intros ->. destruct (B p eq_refl (ex_intro _ u eq_refl)) as (s1 & s2 & Ea & _). unfold nofile in Hp. rewrite Ea in Hp. discriminate.
  - apply A; [exact Hq|]. right. discriminate.
  - apply A; [exact Hq|]. right. discriminate.
Qed.
