(** Proofs about traversal (ast/walk.go, rules/rules.go). *)
From Verif Require Import Text GoAst Ast Walk SpecTree.
From Coq Require Import Bool Lia.

(** Induction over a node through its children. *)
Lemma node_ind_children (P : node -> Prop) :
  (forall n, (forall c, In c (children n) -> P c) -> P n) -> forall n, P n.
Proof.
  intros H.
  assert (Hnil : P NNil) by (apply H; intros c []).
  assert (Hpart : forall p, P (node_of_part p)).
  { intros [c|a|]; apply H; intros x []. }
  assert (Hop : forall o, P (node_of_op o)).
  { intros [c|ps|]; apply H; cbn [node_of_op children]; try (intros x []).
    intros x Hx. apply in_map_iff in Hx. destruct Hx as [p [<- _]]. apply Hpart. }
  assert (Hval : forall v, P (node_of_value v)).
  { apply value_ind'; cbn [node_of_value].
    2: { intros e; apply H; intros c []. }
    2: { intros x; apply H; intros c []. }
    2: { exact Hnil. }
    intros s IH. apply H. cbn [children]. intros c [<-|Hc]; [apply Hop|].
    apply in_map_iff in Hc. destruct Hc as [a [<- Ha]].
    rewrite Forall_forall in IH. apply IH; exact Ha. }
  assert (Hrule : forall r, P (NRule r)).
  { intros r. apply H. cbn [children]. intros c [<-|[<-|[]]]; apply Hval. }
  intros [f|r|s|e|x|c|ps|a|]; auto.
  - apply H. cbn [children]. intros c Hc. apply in_map_iff in Hc. destruct Hc as [r [<- _]]. auto.
  - apply (Hval (SExp s)).
  - apply (Hval (EVal e)).
  - apply (Hval (Var x)).
  - apply (Hop (Opcode c)).
  - apply (Hop (OpcodeParts ps)).
  - apply (Hpart (PAlt a)).
Qed.

Lemma wbind_done {S} (o : wout S) : wbind o (fun s => WDone s) = o.
Proof. destruct o; reflexivity. Qed.

Lemma wfor_ext {A B S} (f : A -> S -> wout S) (g : B -> S -> wout S) (h : A -> B) xs s :
  (forall a s, f a s = g (h a) s) -> wfor f xs s = wfor g (map h xs) s.
Proof.
  intros Hfg. revert s. induction xs as [|x xs IH]; intros s; cbn; [reflexivity|].
  rewrite Hfg. destruct (g (h x) s); cbn; [apply IH | reflexivity].
Qed.

Section WalkFacts.
  Context {V S : Type}.
  Variable visit : V -> node -> S -> option V * S.

  Lemma walk_of_part v p s : walk visit v (node_of_part p) s = walk_part visit v p s.
  Proof. destruct p; reflexivity. Qed.
  Lemma walk_of_op v o s : walk visit v (node_of_op o) s = walk_op visit v o s.
  Proof. destruct o; reflexivity. Qed.
  Lemma walk_of_value v x s : walk visit v (node_of_value x) s = walk_value visit v x s.
  Proof. destruct x; reflexivity. Qed.

  (** Walk is a generic traversal along [children]. *)
  Lemma walk_eq v n s :
    walk visit v n s =
    match visit v n s with
    | (None, s') => WDone s'
    | (Some v', s') =>
        match n with
        | NNil => WPanic (unexpected_type "<nil>"%string) s'
        | _ => wfor (walk visit v') (children n) s'
        end
    end.
  Proof.
    destruct n as [f|r|e|e|x|c|ps|a|]; cbn [walk children].
    - destruct (visit v (NFile f) s) as [[v'|] s']; [|reflexivity].
      apply wfor_ext. reflexivity.
    - unfold walk_rule. destruct (visit v (NRule r) s) as [[v'|] s']; [|reflexivity].
      cbn [wfor]. rewrite walk_of_value. destruct (walk_value visit v' (r_match r) s'); cbn; [|reflexivity].
      rewrite walk_of_value. symmetry. apply wbind_done.
    - cbn [walk_value node_of_value]. destruct (visit v (NSExpr e) s) as [[v'|] s']; [|reflexivity].
      cbn [wfor]. rewrite walk_of_op. destruct (walk_op visit v' (s_op e) s'); cbn; [|reflexivity].
      apply wfor_ext. intros a s1. symmetry. apply walk_of_value.
    - cbn [walk_value node_of_value]. destruct (visit v (NExpr e) s) as [[v'|] s']; reflexivity.
    - cbn [walk_value node_of_value]. destruct (visit v (NVar x) s) as [[v'|] s']; reflexivity.
    - cbn [walk_op node_of_op]. unfold walk_op. cbn. destruct (visit v (NOpcode c) s) as [[v'|] s']; reflexivity.
    - unfold walk_op. cbn. destruct (visit v (NParts ps) s) as [[v'|] s']; [|reflexivity].
      apply wfor_ext. intros p s1. symmetry. apply walk_of_part.
    - unfold walk_part. cbn. destruct (visit v (NAlt a) s) as [[v'|] s']; reflexivity.
    - cbn. destruct (visit v NNil s) as [[v'|] s']; reflexivity.
  Qed.

  Lemma walk_down v n s v' s' :
    visit v n s = (Some v', s') -> n <> NNil -> walk visit v n s = wfor (walk visit v') (children n) s'.
  Proof. intros H Hn. rewrite walk_eq, H. destruct n; congruence. Qed.

  Lemma walk_sound : forall n v s s',
    walk visit v n s = WDone s' -> exists calls, Walks visit v n s calls s'.
  Proof.
    apply (node_ind_children (fun n => forall v s s',
      walk visit v n s = WDone s' -> exists calls, Walks visit v n s calls s')).
    intros n IH v s s' H. rewrite walk_eq in H.
    destruct (visit v n s) as [[v'|] s1] eqn:Hv.
    2: { injection H as <-. exists [(v, n)]. apply walks_cut; exact Hv. }
    assert (Hn : n <> NNil) by (intros ->; discriminate).
    assert (Hf : wfor (walk visit v') (children n) s1 = WDone s') by (destruct n; congruence).
    clear H.
    enough (exists calls, WalksAll visit v' (children n) s1 calls s') as [calls Hc].
    { exists ((v, n) :: calls). eapply walks_down; eauto. }
    clear Hv Hn. revert s1 Hf IH. generalize (children n) as cs. clear n.
    induction cs as [|c cs IHcs]; intros s1 Hf IH; cbn [wfor] in Hf.
    - injection Hf as <-. exists []. constructor.
    - destruct (walk visit v' c s1) as [s2|m s2] eqn:Hw; [|discriminate].
      destruct (IH c (or_introl eq_refl) _ _ _ Hw) as [c1 H1].
      destruct (IHcs s2 Hf) as [c2 H2].
      { intros d Hd. apply IH. right; exact Hd. }
      exists (c1 ++ c2). econstructor; eauto.
  Qed.
End WalkFacts.

Scheme Walks_mind := Induction for Walks Sort Prop
  with WalksAll_mind := Induction for WalksAll Sort Prop.
Combined Scheme Walks_mutind from Walks_mind, WalksAll_mind.

Section Logged.
  Context {V S : Type}.
  Variable visit : V -> node -> S -> option V * S.

  Lemma walk_complete :
    (forall v n s calls s', Walks visit v n s calls s' ->
       forall log, walk (logging visit) v n (s, log) = WDone (s', log ++ calls)) /\
    (forall v ns s calls s', WalksAll visit v ns s calls s' ->
       forall log, wfor (walk (logging visit) v) ns (s, log) = WDone (s', log ++ calls)).
  Proof.
    apply (Walks_mutind V S visit
      (fun v n s calls s' _ => forall log, walk (logging visit) v n (s, log) = WDone (s', log ++ calls))
      (fun v ns s calls s' _ => forall log, wfor (walk (logging visit) v) ns (s, log) = WDone (s', log ++ calls))).
    - intros v n s s' Hv log. rewrite walk_eq. unfold logging at 1. cbn [fst snd]. rewrite Hv. reflexivity.
    - intros v v' n s s' calls s'' Hv Hn _ IH log.
      rewrite (walk_down (logging visit) v n (s, log) v' (s', log ++ [(v, n)])); auto.
      + rewrite IH, <- app_assoc. reflexivity.
      + unfold logging. cbn [fst snd]. rewrite Hv. reflexivity.
    - intros v s log. rewrite app_nil_r. reflexivity.
    - intros v n ns s c1 s' c2 s'' _ IH1 _ IH2 log. cbn [wfor]. rewrite IH1. cbn [wbind].
      rewrite IH2, app_assoc. reflexivity.
  Qed.

  (** Logging does not change the traversal. *)
  Definition unlog (o : wout (S * list (V * node))) : wout S :=
    match o with WDone s => WDone (fst s) | WPanic m s => WPanic m (fst s) end.
  Lemma walk_unlog : forall n v s log,
    unlog (walk (logging visit) v n (s, log)) = walk visit v n s.
  Proof.
    apply (node_ind_children (fun n => forall v s log,
      unlog (walk (logging visit) v n (s, log)) = walk visit v n s)).
    intros n IH v s log. rewrite !walk_eq. unfold logging at 1. cbn [fst snd].
    destruct (visit v n s) as [[v'|] s1]; [|reflexivity].
    assert (Hf : unlog (wfor (walk (logging visit) v') (children n) (s1, log ++ [(v, n)]))
                 = wfor (walk visit v') (children n) s1).
    { generalize (log ++ [(v, n)]) as lg. revert s1 IH. generalize (children n) as cs.
      induction cs as [|c cs IHcs]; intros s1 IH lg; cbn [wfor]; [reflexivity|].
      specialize (IH c (or_introl eq_refl) v' s1 lg) as Hc.
      destruct (walk (logging visit) v' c (s1, lg)) as [[s2 lg2]|m [s2 lg2]]; cbn [unlog fst] in Hc;
        rewrite <- Hc; cbn [wbind]; [|reflexivity].
      apply IHcs. intros d Hd. apply IH. right; exact Hd. }
    destruct n; try exact Hf. reflexivity.
  Qed.

  Lemma walk_logged_iff v n s calls s' :
    walk (logging visit) v n (s, []) = WDone (s', calls) <-> Walks visit v n s calls s'.
  Proof.
    split.
    - intros H. assert (Hw : walk visit v n s = WDone s').
      { rewrite <- (walk_unlog n v s []), H. reflexivity. }
      apply walk_sound in Hw. destruct Hw as [calls' Hw].
      pose proof (proj1 walk_complete _ _ _ _ _ Hw []) as H'. rewrite H in H'.
      injection H' as ->. exact Hw.
    - intros H. apply (proj1 walk_complete _ _ _ _ _ H []).
  Qed.

  Lemma walk_iff v n s s' :
    walk visit v n s = WDone s' <-> exists calls, Walks visit v n s calls s'.
  Proof.
    split; [apply walk_sound|]. intros [calls H].
    rewrite <- (walk_unlog n v s []), (proj1 walk_complete _ _ _ _ _ H []). reflexivity.
  Qed.

  (** The only panic: descending into a nil. *)
  Lemma walk_panics_on_nil : forall n v s m s',
    walk visit v n s = WPanic m s' -> m = unexpected_type "<nil>"%string /\ occurs NNil n.
  Proof.
    apply (node_ind_children (fun n => forall v s m s',
      walk visit v n s = WPanic m s' -> m = unexpected_type "<nil>"%string /\ occurs NNil n)).
    intros n IH v s m s' H. rewrite walk_eq in H.
    destruct (visit v n s) as [[v'|] s1]; [|discriminate].
    assert (D : n = NNil \/ wfor (walk visit v') (children n) s1 = WPanic m s').
    { destruct n; auto. }
    destruct D as [->|Hf]; [injection H as <- <-; split; [reflexivity|constructor]|].
    clear H.
    enough (Hx : forall cs s1, (forall c, In c cs -> In c (children n)) ->
       wfor (walk visit v') cs s1 = WPanic m s' -> m = unexpected_type "<nil>"%string /\ occurs NNil n).
    { eapply Hx; [|exact Hf]. auto. }
    induction cs as [|c cs IHcs]; intros s2 Hin Hw; cbn [wfor] in Hw; [discriminate|].
    destruct (walk visit v' c s2) as [s3|m3 s3] eqn:Hc; cbn [wbind] in Hw.
    - eapply IHcs; [|exact Hw]. intros d Hd. apply Hin. right; exact Hd.
    - injection Hw as <- <-. destruct (IH c (Hin c (or_introl eq_refl)) _ _ _ _ Hc) as [-> Ho].
      split; [reflexivity|]. econstructor; [apply Hin; left; reflexivity|exact Ho].
  Qed.
End Logged.

(** Preorder: existence and determinism. *)
Scheme preorder_mind := Induction for preorder Sort Prop
  with preorders_mind := Induction for preorders Sort Prop.
Combined Scheme preorder_mutind from preorder_mind, preorders_mind.

Lemma preorder_exists : forall n, exists l, preorder n l.
Proof.
  apply node_ind_children. intros n IH.
  assert (H : exists l, preorders (children n) l).
  { revert IH. generalize (children n) as cs. induction cs as [|c cs IHcs]; intros IH.
    - exists []. constructor.
    - destruct (IH c (or_introl eq_refl)) as [l Hl].
      destruct IHcs as [ls Hls]; [intros d Hd; apply IH; right; exact Hd|].
      exists (l ++ ls). constructor; assumption. }
  destruct H as [l Hl]. exists (n :: l). constructor; exact Hl.
Qed.

Lemma preorder_det :
  (forall n l, preorder n l -> forall l', preorder n l' -> l = l') /\
  (forall ns l, preorders ns l -> forall l', preorders ns l' -> l = l').
Proof.
  apply (preorder_mutind (fun n l _ => forall l', preorder n l' -> l = l')
                         (fun ns l _ => forall l', preorders ns l' -> l = l')).
  - intros n l _ IH l' H. inversion H; subst. f_equal. apply IH; assumption.
  - intros l' H. inversion H; reflexivity.
  - intros n ns l ls _ IH1 _ IH2 l' H. inversion H; subst.
    f_equal; [apply IH1|apply IH2]; assumption.
Qed.

Lemma preorder_occurs :
  (forall n l, preorder n l -> forall x, In x l <-> occurs x n) /\
  (forall ns l, preorders ns l -> forall x, In x l <-> exists c, In c ns /\ occurs x c).
Proof.
  apply (preorder_mutind (fun n l _ => forall x, In x l <-> occurs x n)
           (fun ns l _ => forall x, In x l <-> exists c, In c ns /\ occurs x c)).
  - intros n l _ IH x. cbn [In]. rewrite IH. split.
    + intros [->|[c [Hc Ho]]]; [constructor|econstructor; eauto].
    + intros H. inversion H; subst; [left; reflexivity|right; eauto].
  - intros x. split; [intros []|intros [c [[] _]]].
  - intros n ns l ls _ IH1 _ IH2 x. rewrite in_app_iff, IH1, IH2. split.
    + intros [H|[c [Hc Ho]]]; [exists n; split; [left; reflexivity|exact H]|].
      exists c; split; [right; exact Hc|exact Ho].
    + intros [c [[<-|Hc] Ho]]; [left; exact Ho|right; eauto].
Qed.

(** Contains, general form: the first element of the preorder that satisfies the
    predicate or is nil decides. *)
Section Contains.
  Context {S : Type}.
  Variable pred : node -> S -> bool * S.
  Let f n (st : bool * S) :=
    let '(found, s) := st in
    let '(found', s') := if found then (true, s) else pred n s in
    (negb found', (found', s')).

  Fixpoint search (l : list node) (s : S) : res (bool * S) :=
    match l with
    | [] => Ok (false, s)
    | n :: l' =>
        let '(b, s') := pred n s in
        if b then Ok (true, s')
        else match n with
             | NNil => Panic (unexpected_type "<nil>"%string)
             | _ => search l' s'
             end
    end.

  Definition of_wout (o : wout (bool * S)) : res (bool * S) :=
    match o with WDone st => Ok st | WPanic m _ => Panic m end.

  Lemma f_found n s : f n (true, s) = (false, (true, s)).
  Proof. reflexivity. Qed.

  Lemma inspect_found n s : inspect f n (true, s) = WDone (true, s).
  Proof. unfold inspect. rewrite walk_eq. reflexivity. Qed.

  Lemma wfor_found cs s : wfor (walk (inspector f) tt) cs (true, s) = WDone (true, s).
  Proof.
    induction cs as [|c cs IH]; cbn [wfor]; [reflexivity|].
    change (walk (inspector f) tt c (true, s)) with (inspect f c (true, s)).
    rewrite inspect_found. cbn [wbind]. exact IH.
  Qed.

  Lemma search_app l1 l2 s :
    search (l1 ++ l2) s =
    match search l1 s with
    | Ok (false, s') => search l2 s'
    | r => r
    end.
  Proof.
    revert s. induction l1 as [|n l1 IH]; intros s; cbn [search app]; [reflexivity|].
    destruct (pred n s) as [[|] s']; [reflexivity|]. destruct n; try apply IH. reflexivity.
  Qed.

  Lemma inspect_search :
    (forall n l, preorder n l -> forall s, of_wout (inspect f n (false, s)) = search l s) /\
    (forall ns l, preorders ns l -> forall s,
       of_wout (wfor (walk (inspector f) tt) ns (false, s)) = search l s).
  Proof.
    apply (preorder_mutind
      (fun n l _ => forall s, of_wout (inspect f n (false, s)) = search l s)
      (fun ns l _ => forall s, of_wout (wfor (walk (inspector f) tt) ns (false, s)) = search l s)).
    - intros n l _ IH s. unfold inspect. rewrite walk_eq. unfold inspector at 1. unfold f at 1.
      cbn [search]. destruct (pred n s) as [[|] s']; cbn [negb]; [reflexivity|].
      rewrite <- IH. destruct n; reflexivity.
    - intros s. reflexivity.
    - intros n ns l ls _ IH1 _ IH2 s. rewrite search_app, <- IH1. cbn [wfor].
      change (walk (inspector f) tt n (false, s)) with (inspect f n (false, s)).
      destruct (inspect f n (false, s)) as [[[|] s']|m s']; cbn [wbind of_wout].
      + rewrite wfor_found. reflexivity.
      + apply IH2.
      + reflexivity.
  Qed.

  Lemma contains_eff_search n l s : preorder n l -> contains_eff pred n s = search l s.
  Proof. intros H. rewrite <- (proj1 inspect_search n l H s). reflexivity. Qed.
End Contains.

Lemma search_nil_free pred l s :
  ~ In NNil l -> search (log_pred pred) l s = Ok (existsb pred l, s ++ upto pred l).
Proof.
  revert s. induction l as [|n l IH]; intros s Hn; cbn [search existsb upto].
  - rewrite app_nil_r. reflexivity.
  - unfold log_pred at 1. destruct (pred n) eqn:Hp; [reflexivity|].
    cbn [orb]. assert (Hr : search (log_pred pred) l (s ++ [n]) =
      match n with NNil => Panic (unexpected_type "<nil>"%string) | _ => search (log_pred pred) l (s ++ [n]) end).
    { destruct n; try reflexivity. exfalso; apply Hn; left; reflexivity. }
    rewrite <- Hr, IH; [|intros H; apply Hn; right; exact H].
    rewrite <- app_assoc. reflexivity.
Qed.

(** Contains on a pure predicate. *)
Definition pure_pred (pred : node -> bool) (n : node) (_ : unit) : bool * unit := (pred n, tt).

Fixpoint first_decides (pred : node -> bool) (l : list node) : res bool :=
  match l with
  | [] => Ok false
  | n :: l' =>
      if pred n then Ok true
      else match n with NNil => Panic (unexpected_type "<nil>"%string) | _ => first_decides pred l' end
  end.

Lemma contains_first_decides pred n l : preorder n l -> contains pred n = first_decides pred l.
Proof.
  intros H. unfold contains. rewrite (contains_eff_search _ n l tt H).
  clear H. induction l as [|x l IH]; cbn; [reflexivity|].
  destruct (pred x); [reflexivity|]. destruct x; try exact IH. reflexivity.
Qed.

Lemma first_decides_ok pred l b : first_decides pred l = Ok b -> (b = true <-> exists x, In x l /\ pred x = true).
Proof.
  induction l as [|x l IH]; cbn [first_decides]; intros H.
  - injection H as <-. split; [discriminate|intros [x [[] _]]].
  - destruct (pred x) eqn:Hp.
    + injection H as <-. split; [|reflexivity]. intros _. exists x. split; [left; reflexivity|exact Hp].
    + assert (H' : first_decides pred l = Ok b) by (destruct x; congruence).
      rewrite (IH H'). split.
      * intros [y [Hy Hpy]]. exists y. split; [right; exact Hy|exact Hpy].
      * intros [y [[<-|Hy] Hpy]]; [congruence|]. exists y. split; assumption.
Qed.

Lemma first_decides_total pred l : ~ In NNil l -> exists b, first_decides pred l = Ok b.
Proof.
  induction l as [|x l IH]; cbn [first_decides]; intros H; [eexists; reflexivity|].
  destruct (pred x); [eexists; reflexivity|].
  destruct IH as [b Hb]; [intros H'; apply H; right; exact H'|].
  exists b. destruct x; try exact Hb. exfalso; apply H; left; reflexivity.
Qed.

Lemma contains_ok pred n b :
  contains pred n = Ok b -> (b = true <-> exists x, occurs x n /\ pred x = true).
Proof.
  destruct (preorder_exists n) as [l Hl]. rewrite (contains_first_decides pred n l Hl). intros H.
  rewrite (first_decides_ok pred l b H). split; intros [x [Hx Hp]]; exists x; split; auto;
    apply (proj1 preorder_occurs n l Hl x); exact Hx.
Qed.

Lemma contains_total pred n : nil_free n -> exists b, contains pred n = Ok b.
Proof.
  destruct (preorder_exists n) as [l Hl]. rewrite (contains_first_decides pred n l Hl). intros H.
  apply first_decides_total. intros Hin. apply H. apply (proj1 preorder_occurs n l Hl NNil). exact Hin.
Qed.

Lemma contains_not_err pred n m : contains pred n <> Err m.
Proof.
  destruct (preorder_exists n) as [l Hl]. rewrite (contains_first_decides pred n l Hl).
  clear Hl. induction l as [|x l IH]; cbn [first_decides]; [discriminate|].
  destruct (pred x); [discriminate|]. destruct x; try exact IH. discriminate.
Qed.

(** Feature tests. *)
Lemma has_feature p r b :
  contains (on_sexpr p) (NRule r) = Ok b ->
  (b = true <-> exists s, occurs (NSExpr s) (NRule r) /\ p s = true).
Proof.
  intros H. rewrite (contains_ok _ _ _ H). split.
  - intros [x [Hx Hp]]. destruct x as [| |s| | | | | |]; cbn in Hp; try discriminate. exists s; auto.
  - intros [s [Hs Hp]]. exists (NSExpr s). auto.
Qed.

(** Walk with a visitor that never prunes: the calls are the preorder. *)
Lemma walks_all_preorder {V S} (visit : V -> node -> S -> option V * S) (v : V) :
  (forall n s, exists s', visit v n s = (Some v, s')) ->
  (forall n l, preorder n l -> ~ In NNil l -> forall s, exists s', Walks visit v n s (map (pair v) l) s') /\
  (forall ns l, preorders ns l -> ~ In NNil l -> forall s, exists s', WalksAll visit v ns s (map (pair v) l) s').
Proof.
  intros Hv.
  apply (preorder_mutind
    (fun n l _ => ~ In NNil l -> forall s, exists s', Walks visit v n s (map (pair v) l) s')
    (fun ns l _ => ~ In NNil l -> forall s, exists s', WalksAll visit v ns s (map (pair v) l) s')).
  - intros n l _ IH Hn s. destruct (Hv n s) as [s1 H1].
    destruct (IH (fun H => Hn (or_intror H)) s1) as [s2 H2]. exists s2. cbn [map].
    eapply walks_down; eauto. intros ->. apply Hn. left; reflexivity.
  - intros _ s. exists s. constructor.
  - intros n ns l ls _ IH1 _ IH2 Hn s.
    destruct (IH1 (fun H => Hn (proj2 (in_app_iff _ _ _) (or_introl H))) s) as [s1 H1].
    destruct (IH2 (fun H => Hn (proj2 (in_app_iff _ _ _) (or_intror H))) s1) as [s2 H2].
    exists s2. rewrite map_app. econstructor; eauto.
Qed.

(** Inspect with a pure callback. *)
Lemma walks_visible (f : node -> bool) :
  let cb := fun n (log : list node) => (f n, log ++ [n]) in
  (forall v n s calls s', Walks (inspector cb) v n s calls s' ->
     exists l, visible f n l /\ s' = s ++ l) /\
  (forall v ns s calls s', WalksAll (inspector cb) v ns s calls s' ->
     exists l, visibles f ns l /\ s' = s ++ l).
Proof.
  intros cb.
  apply (Walks_mutind unit (list node) (inspector cb)
    (fun v n s calls s' _ => exists l, visible f n l /\ s' = s ++ l)
    (fun v ns s calls s' _ => exists l, visibles f ns l /\ s' = s ++ l)).
  - intros v n s s' H. unfold inspector, cb in H. destruct (f n) eqn:Hf; [discriminate|].
    injection H as <-. exists [n]. split; [constructor; exact Hf|reflexivity].
  - intros v v' n s s' calls s'' H Hn _ [l [Hl ->]]. unfold inspector, cb in H.
    destruct (f n) eqn:Hf; [|discriminate]. injection H as _ <-.
    exists (n :: l). split; [constructor; auto|]. rewrite <- app_assoc. reflexivity.
  - intros v s. exists []. split; [constructor|]. rewrite app_nil_r. reflexivity.
  - intros v n ns s c1 s' c2 s'' _ [l1 [H1 ->]] _ [l2 [H2 ->]].
    exists (l1 ++ l2). split; [constructor; assumption|]. rewrite app_assoc. reflexivity.
Qed.

Scheme visible_mind := Induction for visible Sort Prop
  with visibles_mind := Induction for visibles Sort Prop.
Combined Scheme visible_mutind from visible_mind, visibles_mind.

Lemma visible_walks (f : node -> bool) :
  let cb := fun n (log : list node) => (f n, log ++ [n]) in
  (forall n l, visible f n l -> forall s, inspect cb n s = WDone (s ++ l)) /\
  (forall ns l, visibles f ns l -> forall s, wfor (walk (inspector cb) tt) ns s = WDone (s ++ l)).
Proof.
  intros cb.
  apply (visible_mutind f
    (fun n l _ => forall s, inspect cb n s = WDone (s ++ l))
    (fun ns l _ => forall s, wfor (walk (inspector cb) tt) ns s = WDone (s ++ l))).
  - intros n Hf s. unfold inspect. rewrite walk_eq. unfold inspector at 1, cb at 1. rewrite Hf. reflexivity.
  - intros n l Hf Hn _ IH s. unfold inspect.
    rewrite (walk_down (inspector cb) tt n s tt (s ++ [n])).
    + rewrite IH, <- app_assoc. reflexivity.
    + unfold inspector, cb. rewrite Hf. reflexivity.
    + exact Hn.
  - intros s. rewrite app_nil_r. reflexivity.
  - intros n ns l ls _ IH1 _ IH2 s. cbn [wfor].
    change (walk (inspector cb) tt n s) with (inspect cb n s). rewrite IH1. cbn [wbind].
    rewrite IH2, app_assoc. reflexivity.
Qed.

Lemma inspect_visible (f : node -> bool) n l :
  inspect (fun n (log : list node) => (f n, log ++ [n])) n [] = WDone l <-> visible f n l.
Proof.
  split.
  - intros H. apply walk_iff in H. destruct H as [calls H].
    apply (proj1 (walks_visible f)) in H. destruct H as [l' [Hl ->]]. exact Hl.
  - intros H. apply (proj1 (visible_walks f) n l H []).
Qed.

Lemma inspect_panic (f : node -> bool) : forall n s m s',
  inspect (fun n (log : list node) => (f n, log ++ [n])) n s = WPanic m s' ->
  f NNil = true /\ occurs NNil n.
Proof.
  intros n s m s' H. split; [|exact (proj2 (walk_panics_on_nil _ n tt s m s' H))].
  revert n s m s' H. unfold inspect.
  apply (node_ind_children (fun n => forall s m s', _ -> f NNil = true)).
  intros n IH s m s' H. rewrite walk_eq in H. unfold inspector at 1 in H.
  destruct (f n) eqn:Hf; [|discriminate].
  assert (D : n = NNil \/ wfor (walk (inspector (fun n (log : list node) => (f n, log ++ [n]))) tt) (children n) (s ++ [n]) = WPanic m s').
  { destruct n; auto. }
  destruct D as [->|Hw]; [exact Hf|]. clear H Hf.
  enough (Hx : forall cs s1, (forall c, In c cs -> In c (children n)) ->
     wfor (walk (inspector (fun n (log : list node) => (f n, log ++ [n]))) tt) cs s1 = WPanic m s' -> f NNil = true).
  { eapply Hx; [|exact Hw]. auto. }
  induction cs as [|c cs IHcs]; intros s2 Hin Hw2; cbn [wfor] in Hw2; [discriminate|].
  destruct (walk (inspector (fun n (log : list node) => (f n, log ++ [n]))) tt c s2) as [s3|m3 s3] eqn:Hc; cbn [wbind] in Hw2.
  - eapply IHcs; [|exact Hw2]. intros d Hd. apply Hin. right; exact Hd.
  - eapply IH; [apply Hin; left; reflexivity|exact Hc].
Qed.

(** Computational tests for absence. *)
Lemma nil_free_test n : contains (fun _ => false) n = Ok false -> nil_free n.
Proof.
  destruct (preorder_exists n) as [l Hl]. rewrite (contains_first_decides _ n l Hl). intros H Ho.
  apply (proj1 preorder_occurs n l Hl) in Ho. clear Hl.
  induction l as [|x l IH]; [destruct Ho|]. cbn in H. destruct x, Ho as [Ho|Ho]; try discriminate; auto.
Qed.

Lemma not_occurs_test pred n x : contains pred n = Ok false -> pred x = true -> ~ occurs x n.
Proof.
  intros H Hp Ho. discriminate (proj2 (contains_ok pred n false H) (ex_intro _ x (conj Ho Hp))).
Qed.

(** ** Callbacks with a state *)
Scheme shown_mind := Induction for shown Sort Prop
  with showns_mind := Induction for showns Sort Prop.
Combined Scheme shown_mutind from shown_mind, showns_mind.
Section Stateful.
  Context {S : Type}.
  Variable f : node -> S -> bool * S.
  Definition logged (n : node) (st : S * list (node * bool)) : bool * (S * list (node * bool)) :=
    let '(b, s') := f n (fst st) in (b, (s', snd st ++ [(n, b)])).
  Lemma answers_app l1 l2 s s' : answers f (l1 ++ l2) s s' <-> exists s1, answers f l1 s s1 /\ answers f l2 s1 s'.
  Proof.
    revert s. induction l1 as [|[n b] l1 IH]; intros s; cbn [app answers].
    - split; [eauto|]. intros (s1 & -> & H). exact H.
    - split.
      + intros (s1 & H & K). apply IH in K. destruct K as (s2 & K1 & K2). eauto.
      + intros (s2 & (s1 & H & K1) & K2). exists s1. split; [exact H|]. apply IH. eauto.
  Qed.
  Lemma shown_run :
    (forall n l, shown n l -> forall s s' log, answers f l s s' -> inspect logged n (s, log) = WDone (s', log ++ l)) /\
    (forall ns l, showns ns l -> forall s s' log, answers f l s s' -> wfor (walk (inspector logged) tt) ns (s, log) = WDone (s', log ++ l)).
  Proof.
    apply (shown_mutind (fun n l _ => forall s s' log, answers f l s s' -> inspect logged n (s, log) = WDone (s', log ++ l))
      (fun ns l _ => forall s s' log, answers f l s s' -> wfor (walk (inspector logged) tt) ns (s, log) = WDone (s', log ++ l))).
    - intros n s s' log (s1 & E & ->). unfold inspect. rewrite walk_eq. unfold inspector at 1, logged at 1. cbn [fst snd]. rewrite E. reflexivity.
    - intros n l Hn _ IH s s' log (s1 & E & A). unfold inspect. rewrite (walk_down (inspector logged) tt n (s, log) tt (s1, log ++ [(n, true)])); [|unfold inspector, logged; cbn [fst snd]; rewrite E; reflexivity|exact Hn].
      rewrite (IH _ _ _ A), <- app_assoc. reflexivity.
    - intros s s' log ->. rewrite app_nil_r. reflexivity.
    - intros n ns l ls _ IH1 _ IH2 s s' log A. apply answers_app in A. destruct A as (s1 & A1 & A2). cbn [wfor]. change (walk (inspector logged) tt n (s, log)) with (inspect logged n (s, log)).
      rewrite (IH1 _ _ _ A1). cbn [wbind]. rewrite (IH2 _ _ _ A2), app_assoc. reflexivity.
  Qed.
  Lemma run_shown : forall n s log st, inspect logged n (s, log) = WDone st -> exists l, shown n l /\ snd st = log ++ l /\ answers f l s (fst st).
  Proof.
    apply (node_ind_children (fun n => forall s log st, inspect logged n (s, log) = WDone st -> exists l, shown n l /\ snd st = log ++ l /\ answers f l s (fst st))).
    intros n IH s log st H. unfold inspect in H. rewrite walk_eq in H. unfold inspector at 1, logged at 1 in H. cbn [fst snd] in H. destruct (f n s) as [[|] s1] eqn:E.
    - assert (Hn : n <> NNil) by (intros ->; discriminate).
      assert (X : exists l, showns (children n) l /\ snd st = (log ++ [(n, true)]) ++ l /\ answers f l s1 (fst st)).
      { assert (H' : wfor (walk (inspector logged) tt) (children n) (s1, log ++ [(n, true)]) = WDone st) by (destruct n; try exact H; congruence). clear H Hn E.
        revert H'. generalize (log ++ [(n, true)]). revert s1 st. induction (children n) as [|c cs IHc]; intros s1 st lg H; cbn [wfor] in H.
        - inversion H; subst. exists []. rewrite app_nil_r. split; [constructor|]. split; reflexivity.
        - change (walk (inspector logged) tt c (s1, lg)) with (inspect logged c (s1, lg)) in H. destruct (inspect logged c (s1, lg)) as [[s2 lg2]|] eqn:E; [|discriminate]. cbn [wbind] in H.
          destruct (IH c (or_introl eq_refl) _ _ _ E) as (l1 & L1 & E1 & A1). cbn [fst snd] in *. subst lg2.
          destruct (IHc (fun c' I => IH c' (or_intror I)) _ _ _ H) as (l2 & L2 & E2 & A2). exists (l1 ++ l2). split; [constructor; assumption|]. split; [rewrite E2, app_assoc; reflexivity|].
          apply answers_app. eauto. }
      destruct X as (l & L & E2 & A). exists ((n, true) :: l). split; [constructor; assumption|]. split; [rewrite E2, <- app_assoc; reflexivity|]. cbn [answers]. eauto.
    - inversion H; subst. exists [(n, false)]. split; [constructor|]. split; [reflexivity|]. cbn [answers]. eauto.
  Qed.
  Lemma unlogged : forall n s log, match inspect logged n (s, log) with
    | WDone st => inspect f n s = WDone (fst st) | WPanic m st => inspect f n s = WPanic m (fst st) end.
  Proof.
    apply (node_ind_children (fun n => forall s log, match inspect logged n (s, log) with
      | WDone st => inspect f n s = WDone (fst st) | WPanic m st => inspect f n s = WPanic m (fst st) end)).
    intros n IH s log. unfold inspect. rewrite (walk_eq (inspector logged)), (walk_eq (inspector f)). assert (EL : inspector logged tt n (s, log) = (let '(b, s1) := f n s in (if b then Some tt else None, (s1, log ++ [(n, b)])))) by (unfold inspector, logged; cbn [fst snd]; destruct (f n s) as [[|] s1]; reflexivity).
    assert (EF : inspector f tt n s = (let '(b, s1) := f n s in (if b then Some tt else None, s1))) by reflexivity.
    rewrite EL, EF. clear EL EF. destruct (f n s) as [[|] s1] eqn:E; [|reflexivity].
    assert (X : forall cs lg s1, (forall c, In c cs -> In c (children n)) -> match wfor (walk (inspector logged) tt) cs (s1, lg) with
      | WDone st => wfor (walk (inspector f) tt) cs s1 = WDone (fst st) | WPanic m st => wfor (walk (inspector f) tt) cs s1 = WPanic m (fst st) end).
    { induction cs as [|c cs IHc]; intros lg s2 Inc; cbn [wfor]; [reflexivity|].
      pose proof (IH c (Inc c (or_introl eq_refl)) s2 lg) as Hc. unfold inspect in Hc. destruct (walk (inspector logged) tt c (s2, lg)) as [[s3 lg3]|m [s3 lg3]]; rewrite Hc; cbn [wbind fst]; [|reflexivity].
      apply IHc. intros c' I. apply Inc. right. exact I. }
    destruct n; try (apply X; auto); reflexivity.
  Qed.
  Lemma inspect_stateful n s s' : inspect f n s = WDone s' <-> exists l, shown n l /\ answers f l s s'.
  Proof.
    pose proof (unlogged n s []) as U. split.
    - intros H. destruct (inspect logged n (s, [])) as [st|m st] eqn:E; [|congruence]. rewrite H in U. inversion U; subst s'. destruct (run_shown _ _ _ _ E) as (l & L & _ & A). eauto.
    - intros (l & L & A). rewrite (proj1 shown_run _ _ L _ _ [] A) in U. exact U.
  Qed.
  Lemma inspect_logged n s s' l : inspect logged n (s, []) = WDone (s', l) <-> shown n l /\ answers f l s s'.
  Proof.
    split.
    - intros H. destruct (run_shown _ _ _ _ H) as (l' & L & E & A). cbn [fst snd app] in *. subst l'. auto.
    - intros [L A]. exact (proj1 shown_run _ _ L _ _ [] A).
  Qed.
  Lemma search_first_hit l s : ~ In NNil l -> search f l s = Ok (first_hit f l s).
  Proof.
    revert s. induction l as [|n l IH]; intros s Hn; cbn [search first_hit]; [reflexivity|]. destruct (f n s) as [[|] s1]; [reflexivity|].
    assert (n <> NNil) by (intros ->; apply Hn; left; reflexivity). rewrite IH by (intros K; apply Hn; right; exact K). destruct n; congruence.
  Qed.
End Stateful.
