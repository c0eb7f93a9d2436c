(** Proofs about HeapDump.v: C63. *)
From Verif Require Import Text GoAst Ast Utf8 Quote Parse Dump SpecSyntax SpecDump DumpFacts Heap SpecHeap HeapDump SpecShare.
From Coq Require Import Arith Bool NArith Lia.
Open Scope nat_scope.
Open Scope list_scope.

(** ** Commands that do the same whatever the writer *)
Definition nls (t : text) : nat := count_occ ascii_dec t nl.
Fixpoint lines (l : list act) : nat :=
  match l with [] => 0 | Pr t :: l => nls t + lines l | _ :: l => lines l end.
Lemma lines_app a b : lines (a ++ b) = lines a + lines b.
Proof. induction a as [|[t| |] a IH]; cbn; lia. Qed.

Section Lines.
  Context {W : Type} (write : W -> text -> W * option text).
  Lemma out_line c p : d_line (d_out write c p) = d_line p.
  Proof. unfold d_out. destruct (d_err p); [reflexivity|]. destruct (write (d_w p) c). reflexivity. Qed.
  Lemma indentation_line k : forall p, d_line (d_indentation write k p) = d_line p.
  Proof. induction k; intros p; cbn; [reflexivity|]. rewrite IHk. apply out_line. Qed.
  Lemma write_line data : forall pend p, d_line (d_write write pend data p) = d_line p + nls data.
  Proof.
    induction data as [|b data IH]; intros pend p; cbn [d_write].
    - destruct pend; cbn; rewrite ?out_line; lia.
    - destruct (ascii_dec b nl) as [->|N]; rewrite IH; cbn [d_line].
      + rewrite out_line. unfold nls. rewrite (count_occ_cons_eq _ _ eq_refl). lia.
      + unfold nls. rewrite count_occ_cons_neq by exact N. destruct (ascii_dec (d_last p) nl); rewrite ?indentation_line, ?out_line; reflexivity.
  Qed.
  Lemma run_line l : forall p, d_line (fold_left (d_act write) l p) = d_line p + lines l.
  Proof.
    induction l as [|a l IH]; intros p; cbn [fold_left lines]; [lia|]. rewrite IH. destruct a; cbn [d_act d_line]; try reflexivity.
    rewrite write_line. lia.
  Qed.
End Lines.
Opaque d_act.

Definition Cmd := forall W (write : W -> text -> W * option text), @D W.
Definition does (c : Cmd) (seen : list (nat * nat)) (line : nat) (l : list act) (seen' : list (nat * nat)) : Prop :=
  forall W write (s : hprinter W), hp_ptrmap s = seen -> d_line (hp s) = line ->
    c W write s = Ok {| hp := fold_left (d_act write) l (hp s); hp_ptrmap := seen' |}.
Definition seqc (a b : Cmd) : Cmd := fun W write => then_ (a W write) (b W write).
Definition sayc (l : list act) : Cmd := fun W write => say write l.
Lemma does_say l seen line : does (sayc l) seen line l seen.
Proof. intros W write s E _. unfold sayc, say. now rewrite E. Qed.
Lemma does_seq a b seen line l seen' l' seen'' :
  does a seen line l seen' -> does b seen' (line + lines l) l' seen'' -> does (seqc a b) seen line (l ++ l') seen''.
Proof.
  intros A B W write s E L. unfold seqc, then_. rewrite (A W write s E L). rewrite (B W write); cbn [hp hp_ptrmap].
  - now rewrite fold_left_app.
  - reflexivity.
  - rewrite run_line, L. reflexivity.
Qed.
Lemma does_ext (a b : Cmd) seen line l seen' : (forall W write s, a W write s = b W write s) -> does a seen line l seen' -> does b seen line l seen'.
Proof. intros E A W write s. rewrite <- E. apply A. Qed.

(** ** Documents with objects *)
Definition oitems := list (text * odoc).
Fixpoint marks (line : nat) (d : odoc) : list (nat * nat) :=
  match d with
  | OBlock o _ items =>
      match o with Some a => [(a, line)] | None => [] end ++
      (fix go line (items : oitems) := match items with [] => [] | (_, d) :: is => marks line d ++ go (line + List.length (opened d)) is end) (S line) items
  | _ => []
  end.
Fixpoint marks_items (line : nat) (items : oitems) : list (nat * nat) :=
  match items with [] => [] | (_, d) :: is => marks line d ++ marks_items (line + List.length (opened d)) is end.
Lemma marks_block o h is line : marks line (OBlock o h is) = match o with Some a => [(a, line)] | None => [] end ++ marks_items (S line) is.
Proof. reflexivity. Qed.
Definition opened_items (is : oitems) : list (option nat) := flat_map (fun item => opened (snd item)) is.
Definition events_items (is : oitems) : list event := flat_map (fun item => events (snd item)) is.

Section OdocInd.
  Variable P : odoc -> Prop.
  Hypothesis leaf : forall t, P (OLeaf t).
  Hypothesis block : forall o h is, Forall (fun i => P (snd i)) is -> P (OBlock o h is).
  Hypothesis refer : forall a, P (ORef a).
  Fixpoint odoc_ind' (d : odoc) : P d :=
    match d with
    | OLeaf t => leaf t
    | OBlock o h is => block o h is ((fix go (is : oitems) : Forall (fun i => P (snd i)) is :=
        match is with [] => Forall_nil _ | i :: is => Forall_cons i (odoc_ind' (snd i)) (go is) end) is)
    | ORef a => refer a
    end.
End OdocInd.

Lemma opened_len d : exists n, List.length (opened d) = S n.
Proof.
  destruct d as [t|o h [|i is]|a]; cbn; eauto. destruct (split_nl_cons t) as (l & ls & E). rewrite E. cbn. eauto.
Qed.
Lemma marks_opened d : forall line a n, In (a, n) (marks line d) -> line <= n /\ nth_error (opened d) (n - line) = Some (Some a).
Proof.
  induction d as [t|o h is IH|r] using odoc_ind'; intros line a n H; try destruct H.
  rewrite marks_block in H. apply in_app_iff in H. destruct H as [H|H].
  { destruct o as [b|]; [|destruct H]. destruct H as [E|[]]. injection E as <- <-. split; [lia|]. rewrite Nat.sub_diag. now destruct is. }
  assert (K : S line <= n /\ nth_error (opened_items is) (n - S line) = Some (Some a)).
  { revert IH H. generalize (S line) as m. clear. induction is as [|[x d] is IHl]; intros m IH H; [destruct H|]. inversion IH as [|? ? Hd IH']; subst. cbn in Hd.
    cbn [marks_items] in H. apply in_app_iff in H. unfold opened_items. cbn [flat_map snd]. destruct H as [H|H].
    - apply Hd in H. destruct H as [L E]. split; [exact L|]. rewrite nth_error_app1; [exact E|]. apply nth_error_Some. congruence.
    - apply IHl in H; [|exact IH']. destruct H as [L E]. split; [lia|]. rewrite nth_error_app2 by lia.
      rewrite <- E. f_equal. lia. }
  destruct K as [L E]. split; [lia|]. replace (n - line) with (S (n - S line)) by lia. destruct is as [|i is]; [destruct (n - S line); discriminate|].
  cbn [opened nth_error]. change (flat_map (fun item : text * odoc => opened (snd item)) (i :: is)) with (opened_items (i :: is)).
  rewrite nth_error_app1; [exact E|]. apply nth_error_Some. congruence.
Qed.

Fixpoint heres (es : list event) : list nat :=
  match es with [] => [] | Here a :: es => a :: heres es | There _ :: es => heres es end.
Lemma heres_app a b : heres (a ++ b) = heres a ++ heres b.
Proof. induction a as [|[x|x] a IH]; cbn; congruence. Qed.
Lemma marks_heres d : forall line, map fst (marks line d) = heres (events d).
Proof.
  induction d as [t|o h is IH|r] using odoc_ind'; intros line; try reflexivity. rewrite marks_block. cbn [events]. rewrite map_app, heres_app.
  f_equal; [now destruct o|]. generalize (S line) as m. induction IH as [|[x d] is Hd IH IHl]; intros m; [reflexivity|].
  cbn [marks_items flat_map snd]. rewrite map_app, heres_app, Hd, IHl. reflexivity.
Qed.

Lemma here_in es a : In (Here a) es <-> In a (heres es).
Proof.
  induction es as [|[x|x] es IH]; cbn; [tauto| |].
  - rewrite <- IH. intuition congruence.
  - rewrite <- IH. intuition congruence.
Qed.

(** Reading order, as seen from a list of the objects met before. *)
Fixpoint in_order (seen : list nat) (es : list event) : Prop :=
  match es with
  | [] => True
  | Here a :: es => ~ In a seen /\ in_order (a :: seen) es
  | There a :: es => In a seen /\ in_order seen es
  end.
Lemma in_order_app a : forall seen b, in_order seen (a ++ b) <-> in_order seen a /\ in_order (rev (heres a) ++ seen) b.
Proof.
  induction a as [|[x|x] a IH]; intros seen b; cbn [in_order app heres rev]; [tauto| |].
  - rewrite IH, <- app_assoc. cbn. tauto.
  - rewrite IH. tauto.
Qed.
Lemma in_order_nodup es : forall seen, NoDup seen -> in_order seen es -> NoDup (rev (heres es) ++ seen).
Proof.
  induction es as [|[a|a] es IH]; intros seen N O; cbn; [exact N| |].
  - destruct O as [H O]. rewrite <- app_assoc. cbn. apply (IH (a :: seen)); [constructor; assumption|exact O].
  - apply IH; [exact N|apply O].
Qed.
Lemma in_order_heres es : forall seen b a, in_order seen es -> es = b ++ There a :: skipn (S (List.length b)) es -> In a seen \/ In (Here a) b.
Proof.
  intros seen b a. revert seen es. induction b as [|e b IH]; intros seen es O E.
  - cbn in E. destruct es as [|e es]; [discriminate|]. injection E as ->. left. apply O.
  - destruct es as [|e' es]; [discriminate|]. injection E as -> E. cbn in O. destruct e as [x|x].
    + destruct (IH _ _ (proj2 O) E) as [[->|I]|I]; [right; now left|now left|right; now right].
    + destruct (IH _ _ (proj2 O) E) as [I|I]; [now left|right; now right].
Qed.
Lemma in_order_first es : in_order [] es -> first_met es.
Proof.
  intros O. split; intros b a c E.
  - subst es. apply in_order_app in O. destruct O as [O1 [N _]]. rewrite app_nil_r in N. split; intros I.
    + apply N. rewrite <- in_rev. apply here_in, I.
    + apply N. rewrite <- in_rev. apply in_split in I. destruct I as (b1 & b2 & ->). rewrite heres_app. cbn. apply in_app_iff. left.
      apply in_order_app in O1. destruct O1 as [_ [K _]]. rewrite app_nil_r, <- in_rev in K. exact K.
  - destruct (in_order_heres es [] b a O) as [[]|I]; [|exact I]. subst es. rewrite skipn_app, skipn_all2 by lia.
    replace (S (List.length b) - List.length b) with 1 by lia. reflexivity.
Qed.
Lemma first_in_order es : first_met es -> in_order [] es.
Proof.
  intros [F1 F2]. assert (K : forall b, es = b ++ skipn (List.length b) es -> in_order (rev (heres b)) (skipn (List.length b) es)); [|exact (K [] eq_refl)].
  intros b. remember (skipn (List.length b) es) as r eqn:Er. clear Er. revert b. induction r as [|e r IH]; intros b E; [exact I|].
  assert (E' : es = (b ++ [e]) ++ r) by (rewrite <- app_assoc; exact E). destruct e as [a|a]; cbn [in_order].
  - destruct (F1 _ _ _ E) as [N _]. split; [rewrite <- in_rev, <- here_in; exact N|]. specialize (IH _ E'). rewrite heres_app, rev_app_distr in IH. exact IH.
  - split; [rewrite <- in_rev, <- here_in; exact (F2 _ _ _ E)|]. specialize (IH _ E'). rewrite heres_app, rev_app_distr in IH. exact IH.
Qed.

(** ** What printing does *)
Definition agrees (at_ : nat -> nat) (seen : list (nat * nat)) : Prop := forall a n, In (a, n) seen -> at_ a = n.
Definition spelled_items (at_ : nat -> nat) (is : oitems) : list (text * doc) := map (fun i => (fst i, spelled at_ (snd i))) is.
Definition prints (c : Cmd) (seen : list (nat * nat)) (line : nat) (d : odoc) (seen' : list (nat * nat)) : Prop :=
  exists l, does c seen line l seen' /\ in_order (map fst seen) (events d) /\ seen' = rev (marks line d) ++ seen /\
    S (lines l) = List.length (opened d) /\ forall at_, agrees at_ seen' -> renders l (spelled at_ d).

Lemma order_next seen line d es : in_order (map fst seen) (events d ++ es) <->
  in_order (map fst seen) (events d) /\ in_order (map fst (rev (marks line d) ++ seen)) es.
Proof. rewrite in_order_app, map_app, map_rev, marks_heres. tauto. Qed.

Section Produces.
  Variable N : nat.   (* the addresses of the heap are below N *)
  Definition Inv (seen : list (nat * nat)) : Prop := NoDup (map fst seen) /\ Forall (fun x => fst x < N) seen.
  Definition produces (n : nat) (c : Cmd) (R : odoc -> Prop) : Prop :=
    forall seen line, Inv seen -> n <= List.length seen -> exists d seen', R d /\ prints c seen line d seen' /\ Inv seen'.

  Lemma prints_len c seen line d seen' : prints c seen line d seen' -> List.length seen <= List.length seen'.
  Proof. intros (l & _ & _ & -> & _). rewrite app_length. lia. Qed.

  Lemma produces_say l d : events (plain_doc d) = [] -> S (lines l) = List.length (opened (plain_doc d)) -> (forall line, marks line (plain_doc d) = []) ->
    (forall at_, spelled at_ (plain_doc d) = d) -> renders l d -> forall n, produces n (sayc l) (eq (plain_doc d)).
  Proof.
    intros E L M S R n seen line I _. exists (plain_doc d), seen. split; [reflexivity|]. split; [|exact I]. exists l.
    split; [apply does_say|]. rewrite E, M. split; [exact Logic.I|]. split; [reflexivity|]. split; [exact L|]. intros at_ _. now rewrite S.
  Qed.

  (** *** Items *)
  Fixpoint h_items {W} (write : W -> text -> W * option text) (l : list (text * @D W)) : @D W :=
    match l with
    | [] => nothing write
    | (n, v) :: l => then_ (say write [Pr (n ++ str ": ")]) (then_ v (then_ (say write [Pr [nl]]) (h_items write l)))
    end.
  Definition inst {A W} (write : W -> text -> W * option text) (l : list (A * Cmd)) : list (A * @D W) := map (fun x => (fst x, snd x W write)) l.
  Definition itemsc (l : list (text * Cmd)) : Cmd := fun W write => h_items write (inst write l).

  Lemma items_produce n (l : list (text * Cmd)) (Rs : list (odoc -> Prop)) :
    Forall2 (fun x R => ~ In nl (fst x) /\ produces n (snd x) R) l Rs ->
    forall seen line, Inv seen -> n <= List.length seen ->
    exists ds acs seen', Forall2 (fun (R : odoc -> Prop) d => R d) Rs ds /\ Inv seen' /\
      let is := combine (map fst l) ds in
      does (itemsc l) seen line acs seen' /\ in_order (map fst seen) (events_items is) /\ seen' = rev (marks_items line is) ++ seen /\
      lines acs = List.length (opened_items is) /\
      forall at_, agrees at_ seen' -> forall k done rest, 
        acts (acs ++ rest) (k, (done, (0, []))) = acts rest (k, (done ++ map normed (item_lines k (spelled_items at_ is)), (0, []))).
  Proof.
    induction 1 as [|[name c] R l Rs [Nn P] F IH]; intros seen line Hi Hn.
    - exists [], [], seen. split; [constructor|]. split; [exact Hi|]. cbn. split; [apply does_say|]. split; [exact Logic.I|]. split; [reflexivity|]. split; [reflexivity|].
      intros. now rewrite app_nil_r.
    - cbn [fst snd] in *. destruct (P seen line Hi Hn) as (d & seen1 & Rd & (l1 & D1 & O1 & S1 & L1 & R1) & I1).
      assert (Hn1 : n <= List.length seen1) by (subst seen1; rewrite app_length; lia).
      destruct (IH seen1 (line + List.length (opened d)) I1 Hn1) as (ds & acs & seen2 & Rds & I2 & D2 & O2 & S2 & L2 & R2).
      exists (d :: ds), ([Pr (name ++ str ": ")] ++ l1 ++ [Pr [nl]] ++ acs), seen2. split; [constructor; assumption|]. split; [exact I2|].
      cbn [map combine fst snd]. set (is := combine (map fst l) ds) in *. cbv zeta.
      assert (Nl : lines [Pr (name ++ str ": ")] = 0).
      { cbn [lines]. unfold nls. rewrite Nat.add_0_r. apply count_occ_not_In. rewrite in_app_iff. cbn. intuition discriminate. }
      split; [|split; [|split; [|split]]].
      + change (does (seqc (sayc [Pr (name ++ str ": ")]) (seqc c (seqc (sayc [Pr [nl]]) (itemsc l)))) seen line
                  ([Pr (name ++ str ": ")] ++ l1 ++ [Pr [nl]] ++ acs) seen2).
        eapply does_seq; [apply does_say|]. rewrite Nl, Nat.add_0_r. eapply does_seq; [exact D1|]. eapply does_seq; [apply does_say|].
        replace (line + lines l1 + lines [Pr [nl]]) with (line + List.length (opened d)); [exact D2|]. rewrite <- L1. cbn. lia.
      + unfold events_items. cbn [flat_map snd]. apply (order_next seen line). split; [exact O1|]. rewrite <- S1. exact O2.
      + cbn [marks_items]. rewrite S2, S1, rev_app_distr, app_assoc. reflexivity.
      + rewrite !lines_app, Nl, L2. unfold opened_items. cbn [flat_map snd]. rewrite app_length, <- L1. cbn. lia.
      + intros at_ A k done rest. cbn [app]. rewrite <- app_assoc. cbn [app]. rewrite (renders_item _ (spelled at_ d)).
        * rewrite (R2 at_ A). do 3 f_equal. unfold item_lines. cbn [spelled_items map flat_map fst snd]. rewrite map_app, app_assoc. reflexivity.
        * apply R1. intros a m I. apply A. rewrite S2. apply in_app_iff. now right.
        * exact Nn.
  Qed.

  (** *** Braces *)
  Definition blockc (head : text) (l : list (text * Cmd)) : Cmd :=
    seqc (sayc [Pr (head ++ str " {"); In_]) (seqc (match l with [] => sayc [] | _ => seqc (sayc [Pr [nl]]) (itemsc l) end) (sayc [Out_; Pr (str "}")])).

  Lemma renders_block head acs is : ~ In nl head ->
    (forall k done rest, acts (acs ++ rest) (k, (done, (0, []))) = acts rest (k, (done ++ map normed (item_lines k is), (0, [])))) -> is <> [] ->
    renders ([Pr (head ++ str " {"); In_] ++ (Pr [nl] :: acs) ++ [Out_; Pr (str "}")]) (Block head is).
  Proof.
    intros H A E k done c C. rewrite <- app_comm_cons. cbn [app]. rewrite acts_cons. cbn [act1 fst snd].
    rewrite steps_one; [|exact C|rewrite in_app_iff; cbn; intuition discriminate]. rewrite !acts_cons. cbn [act1 fst snd steps fold_left].
    match goal with |- context [step ?k ?st nl] => change (step k st nl) with (fst st ++ [snd st], (0, @nil ascii)) end. cbn [fst snd].
    rewrite A. cbn [acts fold_left act1 fst snd pred]. change (0, [] : text) with (norm k []). rewrite steps_one; [|intros []|cbn; intuition discriminate].
    destruct is as [|i is]; [contradiction|]. cbn [doc_lines]. fold (item_lines (S k) (i :: is)). rewrite app_comm_cons, map_app. cbn [map]. rewrite fin_app.
    f_equal. f_equal. rewrite <- app_assoc. reflexivity.
  Qed.
  Lemma renders_braces head : ~ In nl head -> renders ([Pr (head ++ str " {"); In_] ++ [Out_; Pr (str "}")]) (Block head []).
  Proof.
    intros H k done c C. cbn [app]. rewrite acts_cons. cbn [act1 fst snd].
    rewrite steps_one; [|exact C|rewrite in_app_iff; cbn; intuition discriminate]. rewrite !acts_cons. cbn [act1 fst snd pred acts fold_left].
    rewrite steps_one.
    - unfold fin. cbn [doc_lines map removelast last]. rewrite app_nil_r. unfold normed. cbn [fst snd].
      match goal with |- (_, (_, norm _ ?a)) = (_, (_, norm _ ?b)) => replace a with b; [reflexivity|] end.
      rewrite <- !app_assoc. reflexivity.
    - rewrite !in_app_iff. cbn. intuition discriminate.
    - cbn. intuition discriminate.
  Qed.

  Lemma block_produces n head l Rs : ~ In nl head ->
    Forall2 (fun x R => ~ In nl (fst x) /\ produces n (snd x) R) l Rs ->
    produces n (blockc head l) (fun d => exists ds, Forall2 (fun (R : odoc -> Prop) d => R d) Rs ds /\ d = OBlock None head (combine (map fst l) ds)).
  Proof.
    intros H F seen line Hi Hn. assert (Z : lines [Pr (head ++ str " {"); In_] = 0).
    { cbn [lines]. unfold nls. rewrite Nat.add_0_r. apply count_occ_not_In. rewrite in_app_iff. cbn. intuition discriminate. }
    assert (Z' : lines [Out_; Pr (str "}")] = 0) by reflexivity.
    destruct l as [|x l].
    - inversion F; subst. exists (OBlock None head []), seen. split; [exists []; split; [constructor|reflexivity]|]. split; [|exact Hi].
      exists ([Pr (head ++ str " {"); In_] ++ [] ++ [Out_; Pr (str "}")]). split; [|split; [|split; [|split]]].
      + unfold blockc. eapply does_seq; [apply does_say|]. eapply does_seq; apply does_say.
      + exact Logic.I.
      + reflexivity.
      + rewrite !lines_app, Z, Z'. reflexivity.
      + intros at_ _. apply renders_braces, H.
    - destruct (items_produce n _ _ F seen (S line) Hi Hn) as (ds & acs & seen' & Rds & I' & D' & O' & S' & L' & R').
      exists (OBlock None head (combine (map fst (x :: l)) ds)), seen'. split; [exists ds; split; [exact Rds|reflexivity]|]. split; [|exact I'].
      set (is := combine (map fst (x :: l)) ds) in *.
      assert (NE : exists i is', is = i :: is') by (inversion F; subst; inversion Rds; subst; cbn in is; subst is; eauto).
      exists ([Pr (head ++ str " {"); In_] ++ (Pr [nl] :: acs) ++ [Out_; Pr (str "}")]). split; [|split; [|split; [|split]]].
      + unfold blockc. eapply does_seq; [apply does_say|]. rewrite Z, Nat.add_0_r. eapply does_seq; [|apply does_say].
        change (Pr [nl] :: acs) with ([Pr [nl]] ++ acs). eapply does_seq; [apply does_say|]. replace (line + lines [Pr [nl]]) with (S line) by (cbn; lia). exact D'.
      + exact O'.
      + rewrite marks_block. exact S'.
      + rewrite !lines_app, Z, Z'. destruct NE as (i & is' & Eis). rewrite Eis in *. cbn [opened]. fold (opened_items (i :: is')). cbn [List.length]. rewrite app_length, <- L'. cbn. lia.
      + intros at_ A. cbn [spelled]. fold (spelled_items at_ is). apply renders_block; [exact H|apply R', A|]. destruct NE as (i & is' & ->). discriminate.
  Qed.

  (** *** Pointers *)
  Definition ptrc (p : nat) (c : Cmd) : Cmd := fun W write => h_ptr write p (c W write).
  Lemma lookup_in p m n : lookup p m = Some n -> In (p, n) m.
  Proof. induction m as [|[q k] m IH]; cbn; [discriminate|]. destruct (Nat.eqb_spec p q) as [->|]; [intros E; injection E as ->; now left|right; auto]. Qed.
  Lemma lookup_none p m : lookup p m = None <-> ~ In p (map fst m).
  Proof.
    induction m as [|[q k] m IH]; cbn; [tauto|]. destruct (Nat.eqb_spec p q) as [->|E]; [split; [discriminate|tauto]|]. rewrite IH. intuition congruence.
  Qed.
  Lemma lookup_nodup p n m : NoDup (map fst m) -> In (p, n) m -> lookup p m = Some n.
  Proof.
    induction m as [|[q k] m IH]; cbn; [tauto|]. intros ND I. inversion ND; subst. destruct (Nat.eqb_spec p q) as [->|E].
    - destruct I as [E|I]; [now injection E as ->|]. exfalso. apply H1. change q with (fst (q, n)). now apply in_map.
    - destruct I as [E'|I]; [injection E' as -> ->; contradiction|auto].
  Qed.

  Lemma star_renders l h is : renders l (Block h is) -> renders (Pr (str "*") :: l) (Block (str "*" ++ h) is).
  Proof.
    intros R k done c C. rewrite acts_cons. cbn [act1 fst snd]. rewrite steps_one; [|exact C|cbn; intuition discriminate].
    rewrite R; [|rewrite in_app_iff; cbn; intuition discriminate]. f_equal. f_equal. f_equal. destruct is; cbn [doc_lines]; rewrite <- !app_assoc; reflexivity.
  Qed.

  Lemma ptr_produces n p c h (Q : oitems -> Prop) : p < N ->
    produces (S n) c (fun d => exists is, Q is /\ d = OBlock None h is) ->
    produces n (ptrc p c) (fun d => d = ORef p \/ exists is, Q is /\ d = OBlock (Some p) (str "*" ++ h) is).
  Proof.
    intros Hp P seen line Hi Hn. destruct (lookup p seen) as [m|] eqn:L.
    - exists (ORef p), seen. split; [now left|]. split; [|exact Hi].
      assert (Nd : ~ In nl (str "(obj @ " ++ dec m ++ str ")")) by (pose proof (dec_nl m); rewrite !in_app_iff; cbn; intuition discriminate).
      exists [Pr (str "*"); Pr (str "(obj @ " ++ dec m ++ str ")")]. split; [|split; [|split; [|split]]].
      + intros W write s E _. unfold ptrc, h_ptr, then_, say. cbn [hp hp_ptrmap fold_left]. rewrite E, L. reflexivity.
      + split; [|exact Logic.I]. change p with (fst (p, m)). apply in_map, lookup_in, L.
      + reflexivity.
      + cbn [lines opened List.length]. unfold nls. rewrite (proj1 (count_occ_not_In ascii_dec _ nl) Nd). reflexivity.
      + intros at_ A. cbn [spelled]. rewrite (A p m) by (apply lookup_in, L). intros k done c0 C. rewrite !acts_cons. cbn [act1 fst snd acts fold_left].
        rewrite steps_one; [|exact C|cbn; intuition discriminate]. rewrite steps_one; [|rewrite in_app_iff; cbn; intuition discriminate|exact Nd].
        cbn [doc_lines]. rewrite split_nl_one; [|rewrite !in_app_iff; pose proof (dec_nl m); cbn; intuition discriminate]. unfold fin. cbn [map removelast last].
        rewrite app_nil_r. unfold normed. cbn [fst snd]. rewrite <- app_assoc. reflexivity.
    - pose proof (proj1 (lookup_none p seen) L) as Nin.
      destruct (P ((p, line) :: seen) line) as (d & seen' & (is & Qi & ->) & (l & D1 & O1 & S1 & L1 & R1) & I1).
      { destruct Hi as [A B]. split; [constructor; assumption|constructor; [exact Hp|exact B]]. }
      { cbn. lia. }
      exists (OBlock (Some p) (str "*" ++ h) is), seen'. split; [right; exists is; split; [exact Qi|reflexivity]|]. split; [|exact I1].
      exists (Pr (str "*") :: l). split; [|split; [|split; [|split]]].
      + intros W write s E Ln. unfold ptrc, h_ptr, then_. cbn [say hp_ptrmap hp]. rewrite E, L.
        rewrite (D1 W write); [reflexivity| |]; cbn [hp hp_ptrmap].
        * f_equal. f_equal. rewrite run_line, Ln. cbn. lia.
        * rewrite run_line, Ln. cbn. lia.
      + cbn [events]. cbn [app in_order]. split; [exact Nin|exact O1].
      + rewrite marks_block in *. cbn [app rev] in *. rewrite S1, <- app_assoc. reflexivity.
      + rewrite <- (Nat.add_0_l (lines l)) in L1. destruct is; exact L1.
      + intros at_ A. cbn [spelled]. apply star_renders. apply (R1 at_ A).
  Qed.
End Produces.

(** ** Scalars: documents without objects *)
Fixpoint clean (d : doc) : Prop :=
  match d with
  | Leaf _ => True
  | Block _ is => fold_right (fun i P => (~ In nl (fst i) /\ clean (snd i)) /\ P) True is
  end.
Section DocInd.
  Variable P : doc -> Prop.
  Hypothesis leaf : forall t, P (Leaf t).
  Hypothesis block : forall h is, Forall (fun i => P (snd i)) is -> P (Block h is).
  Fixpoint doc_ind' (d : doc) : P d :=
    match d with
    | Leaf t => leaf t
    | Block h is => block h is ((fix go (is : list (text * doc)) : Forall (fun i => P (snd i)) is :=
        match is with [] => Forall_nil _ | i :: is => Forall_cons i (doc_ind' (snd i)) (go is) end) is)
    end.
End DocInd.
Lemma plain_events d : events (plain_doc d) = [].
Proof.
  induction d as [t|h is IH] using doc_ind'; [reflexivity|]. cbn. induction IH as [|[x d] is Hd IH IHl]; [reflexivity|]. cbn in *. now rewrite Hd.
Qed.
Lemma plain_marks d line : marks line (plain_doc d) = [].
Proof. apply (map_eq_nil fst). rewrite marks_heres, plain_events. reflexivity. Qed.
Lemma plain_spelled at_ d : spelled at_ (plain_doc d) = d.
Proof.
  induction d as [t|h is IH] using doc_ind'; [reflexivity|]. cbn. f_equal. induction IH as [|[x d] is Hd IH IHl]; [reflexivity|]. cbn in *. now rewrite Hd, IHl.
Qed.
Lemma split_nl_len c t : ~ In nl c -> List.length (split_nl (c ++ t)) = List.length (split_nl t).
Proof. intros H. destruct (split_nl_app c t H) as (l & ls & E & E'). rewrite E, E'. reflexivity. Qed.
Lemma plain_opened d : clean d -> forall k c, ~ In nl c -> List.length (doc_lines k c d) = List.length (opened (plain_doc d)).
Proof.
  induction d as [t|h is IH] using doc_ind'; intros C k c H.
  - cbn. rewrite !map_length. apply split_nl_len, H.
  - destruct is as [|i is]; [reflexivity|]. cbn [clean] in C. cbn [doc_lines plain_doc map opened]. cbn [List.length]. rewrite !app_length. f_equal. f_equal.
    change ((fst i, plain_doc (snd i)) :: map (fun item => (fst item, plain_doc (snd item))) is) with (map (fun item => (fst item, plain_doc (snd item))) (i :: is)).
    revert C. generalize (i :: is) as l, IH. clear. intros l IH. induction IH as [|[x d] is Hd IH IHl]; intros C; [reflexivity|].
    cbn [flat_map map snd fst fold_right] in *. destruct C as [[C1 C2] C]. rewrite !app_length, IHl by exact C. f_equal. apply Hd; [exact C2|].
    rewrite in_app_iff. cbn. intuition discriminate.
Qed.
Lemma steps_lines k t : forall st, List.length (fst (steps k st t)) = List.length (fst st) + nls t.
Proof.
  induction t as [|b t IH]; intros st; [cbn; lia|]. change (steps k st (b :: t)) with (steps k (step k st b) t). rewrite IH. unfold step, nls. cbn [count_occ].
  destruct (ascii_dec b nl); cbn [fst].
  - rewrite app_length. cbn. lia.
  - destruct (snd (snd st)); reflexivity.
Qed.
Lemma acts_lines l : forall s, List.length (fst (snd (acts l s))) = List.length (fst (snd s)) + lines l.
Proof.
  induction l as [|a l IH]; intros s; [cbn; lia|]. rewrite acts_cons, IH. destruct a; cbn [act1 snd lines]; [|lia|lia]. rewrite steps_lines. lia.
Qed.
Lemma renders_lines l d : renders l d -> S (lines l) = List.length (doc_lines 0 [] d).
Proof.
  intros R. specialize (R 0 [] [] (fun x => x)). pose proof (acts_lines l (0, ([], norm 0 []))) as L. rewrite R in L. cbn [snd fst fin List.length app] in L.
  destruct (doc_lines_cons 0 [] d) as (x & xs & E). rewrite E in *. rewrite removelast_firstn_len, firstn_length in L. cbn [map List.length] in *. rewrite map_length in *. lia.
Qed.
Lemma scalar_produces N n l d : clean d -> renders l d -> produces N n (sayc l) (eq (plain_doc d)).
Proof.
  intros C R. apply produces_say; [apply plain_events| |apply plain_marks|intros; apply plain_spelled|exact R].
  rewrite (renders_lines _ _ R). apply plain_opened; [exact C|intros []].
Qed.

Lemma clean_struct ty fields : Forall (fun f => ~ In nl (str (fst f)) /\ match snd f with Some d => clean d | None => True end) fields -> clean (struct ty fields).
Proof.
  intros F. unfold struct. cbn [clean]. induction F as [|[x [d|]] fs [A B] F IH]; [exact I| |exact IH]. cbn [flat_map snd fst app fold_right]. tauto.
Qed.
Lemma clean_slice ty l : Forall clean l -> clean (SpecDump.slice ty l).
Proof.
  intros F. destruct F as [|d l C F]; [exact I|]. unfold SpecDump.slice. cbn [clean]. generalize 0 as i. revert d C. 
  induction F as [|d' l C' F IH]; intros d C i; cbn [indexed fold_right fst snd]; (split; [split; [apply dec_nl|exact C]|]); [exact I|apply IH, C'].
Qed.
Lemma clean_some_slice ty l : Forall clean l -> match some_slice ty l with Some d => clean d | None => True end.
Proof. intros F. pose proof (clean_slice ty l F). destruct l; [exact I|exact H]. Qed.
Ltac nonl := cbn; intuition discriminate.
Ltac clean_fields := apply clean_struct; repeat (apply Forall_cons || apply Forall_nil); (split; [nonl|cbn [snd]]).
Lemma clean_gexpr wp e : clean (gexpr_doc wp e).
Proof.
  induction e using gexpr_ind'; cbn [gexpr_doc]; try exact I.
  - unfold ident_doc. clean_fields; exact I.
  - clean_fields; exact I.
  - clean_fields; try exact I. destruct e; try exact I; exact IHe.
  - clean_fields; try exact I. destruct e; try exact I; exact IHe.
  - clean_fields; try exact I; [destruct e1; try exact I; exact IHe1|destruct e2; try exact I; exact IHe2].
  - clean_fields; try exact I; [destruct e; try exact I; exact IHe|]. apply clean_some_slice. clear -H. induction H; [constructor|]. cbn. constructor; assumption.
  - clean_fields; try exact I. destruct e; try exact I; exact IHe.
  - clean_fields; try exact I; [destruct e; try exact I; exact IHe|]. unfold ident_doc. clean_fields; exact I.
Qed.
Lemma clean_op o : clean (op_doc o).
Proof.
  destruct o as [c|ps|]; try exact I. apply clean_slice. induction ps as [|p ps IH]; [constructor|]. cbn. constructor; [|exact IH].
  destruct p as [c|a|]; try exact I. apply clean_slice. induction a; constructor; [exact I|assumption].
Qed.
Lemma op_renders_ o : renders (a_op o) (op_doc o).
Proof.
  destruct o as [c|ps|]; try apply renders_leaf. apply renders_slice; [nonl|]. induction ps as [|p ps IH]; [constructor|]. cbn. constructor; [|exact IH].
  destruct p as [c|a|]; try apply renders_leaf. apply renders_slice; [nonl|]. induction a; constructor; [apply renders_leaf|assumption].
Qed.

(** ** Structs and slices *)
Definition instf {W} (write : W -> text -> W * option text) (fs : list (string * option Cmd)) : list (string * option (@D W)) :=
  map (fun f => (fst f, option_map (fun c : Cmd => c W write) (snd f))) fs.
Definition keptc {A} (fs : list (string * option A)) : list (text * A) :=
  flat_map (fun f => match snd f with Some d => [(str (fst f), d)] | None => [] end) fs.
Definition structc (ty : string) (fs : list (string * option Cmd)) : Cmd := fun W write => h_struct write ty (instf write fs).
Lemma nothing_id {W} (write : W -> text -> W * option text) s : nothing write s = Ok s.
Proof. unfold nothing, say. cbn. now destruct s. Qed.
Lemma fields_items {W} (write : W -> text -> W * option text) fs : forall s, h_fields write false (instf write fs) s = h_items write (inst write (keptc fs)) s.
Proof.
  induction fs as [|[n [c|]] fs IH]; intros s; [reflexivity| |apply IH]. cbn [instf map fst snd option_map h_fields keptc flat_map app inst h_items].
  fold (instf write fs). fold (keptc fs). fold (@inst text W write (keptc fs)). unfold then_ at 1 2 3 4 5. rewrite nothing_id. cbn [say].
  unfold then_ at 1. cbn [say]. unfold then_. destruct (c W write _) as [s'| |]; try reflexivity. cbn [say]. apply IH.
Qed.
Lemma fields_items_first {W} (write : W -> text -> W * option text) fs : forall s, h_fields write true (instf write fs) s =
  match keptc fs with [] => Ok s | _ => then_ (say write [Pr [nl]]) (h_items write (inst write (keptc fs))) s end.
Proof.
  induction fs as [|[n [c|]] fs IH]; intros s; [apply nothing_id| |apply IH]. cbn [instf map fst snd option_map h_fields keptc flat_map app inst h_items].
  fold (instf write fs). fold (keptc fs). fold (@inst text W write (keptc fs)). unfold then_. cbn [say].
  destruct (c W write _) as [s'| |]; try reflexivity. cbn [say]. apply fields_items.
Qed.
Lemma struct_block ty fs W (write : W -> text -> W * option text) s : blockc (str ty) (keptc fs) W write s = structc ty fs W write s.
Proof.
  unfold structc, h_struct, blockc, seqc, sayc. unfold then_, say. cbv beta iota. cbn [hp hp_ptrmap]. rewrite fields_items_first.
  destruct (keptc fs); [|reflexivity]. unfold say. cbn [hp hp_ptrmap]. reflexivity.
Qed.

Definition field_produces N (n : nat) (o : option Cmd) (R : option odoc -> Prop) : Prop :=
  match o with None => R None | Some c => produces N n c (fun d => R (Some d)) end.
Lemma produces_ext N n (a b : Cmd) R : (forall W write s, a W write s = b W write s) -> produces N n a R -> produces N n b R.
Proof.
  intros E P seen line Hi Hn. destruct (P seen line Hi Hn) as (d & seen' & Rd & (l & Dl & H) & I'). exists d, seen'. split; [exact Rd|]. split; [|exact I'].
  exists l. split; [exact (does_ext _ _ _ _ _ _ E Dl)|exact H].
Qed.
Lemma produces_mono N n m c (R R' : odoc -> Prop) : n <= m -> (forall d, R d -> R' d) -> produces N n c R -> produces N m c R'.
Proof.
  intros L K P seen line Hi Hn. destruct (P seen line Hi) as (d & seen' & Rd & H); [lia|]. exists d, seen'. auto.
Qed.
Lemma struct_produces N n ty fs Rs : ~ In nl (str ty) -> Forall2 (fun f R => ~ In nl (str (fst f)) /\ field_produces N n (snd f) R) fs Rs ->
  produces N n (structc ty fs) (fun d => exists is, (exists os, Forall2 (fun (R : option odoc -> Prop) o => R o) Rs os /\ is = keptc (combine (map fst fs) os)) /\ d = OBlock None (str ty) is).
Proof.
  intros T F. apply (produces_ext _ _ (blockc (str ty) (keptc fs))); [intros; apply struct_block|].
  assert (K : exists Ks, Forall2 (fun x R => ~ In nl (fst x) /\ produces N n (snd x) R) (keptc fs) Ks /\
    forall ds, Forall2 (fun (R : odoc -> Prop) d => R d) Ks ds -> exists os, Forall2 (fun (R : option odoc -> Prop) o => R o) Rs os /\ combine (map fst (keptc fs)) ds = keptc (combine (map fst fs) os)).
  { clear T. induction F as [|[x [c|]] R fs Rs [Nx P] F (Ks & K1 & K2)].
    - exists []. split; [constructor|]. intros ds H. inversion H; subst. exists []. split; [constructor|reflexivity].
    - cbn in P. exists ((fun d => R (Some d)) :: Ks). split; [constructor; [split; assumption|exact K1]|]. intros ds H. inversion H as [|? d ? ds' Rd H']; subst.
      destruct (K2 _ H') as (os & O1 & O2). exists (Some d :: os). split; [constructor; assumption|]. cbn. f_equal. exact O2.
    - cbn in P. exists Ks. split; [exact K1|]. intros ds H. destruct (K2 _ H) as (os & O1 & O2). exists (None :: os). split; [constructor; assumption|exact O2]. }
  destruct K as (Ks & K1 & K2). eapply produces_mono; [reflexivity| |apply (block_produces N n (str ty) _ _ T K1)].
  intros d (ds & H & ->). destruct (K2 _ H) as (os & O1 & O2). eauto 6.
Qed.

Fixpoint labelled {A} (i : nat) (l : list A) : list (text * A) :=
  match l with [] => [] | d :: l => (dec i, d) :: labelled (S i) l end.
Lemma labelled_oindexed l : forall i, oindexed i l = labelled i l.
Proof. induction l as [|d l IH]; intros i; [reflexivity|]. cbn. now rewrite IH. Qed.
Definition slicec (ty : string) (l : list Cmd) : Cmd := fun W write => h_slice write ty (map (fun c : Cmd => c W write) l).
Lemma elems_items {W} (write : W -> text -> W * option text) (l : list Cmd) : forall i s, h_elems write i (map (fun c : Cmd => c W write) l) s = h_items write (inst write (labelled i l)) s.
Proof.
  induction l as [|c l IH]; intros i s; [reflexivity|]. cbn [map h_elems labelled inst h_items fst snd]. fold (@inst text W write (labelled (S i) l)).
  unfold then_. cbn [say]. destruct (c W write _) as [s'| |]; try reflexivity. cbn [say]. apply IH.
Qed.
Definition slice_head (ty : string) (n : nat) : text := str ty ++ str " (len = " ++ dec n ++ str ")".
Lemma slice_block ty l W (write : W -> text -> W * option text) s : l <> [] ->
  blockc (slice_head ty (List.length l)) (labelled 0 l) W write s = slicec ty l W write s.
Proof.
  intros E. unfold blockc, slicec, h_slice, seqc, sayc. destruct (labelled 0 l) eqn:L; [destruct l; [contradiction|discriminate]|]. rewrite <- L. clear L.
  unfold slice_head, itemsc, then_. cbn [say]. rewrite elems_items. rewrite map_length. rewrite <- !app_assoc. reflexivity.
Qed.
Lemma slice_produces N n ty l Rs : ~ In nl (str ty) -> l <> [] -> Forall2 (produces N n) l Rs ->
  produces N n (slicec ty l) (fun d => exists ds, Forall2 (fun (R : odoc -> Prop) d => R d) Rs ds /\ oslice ty ds = Some d).
Proof.
  intros T E F. apply (produces_ext _ _ (blockc (slice_head ty (List.length l)) (labelled 0 l))); [intros; apply slice_block, E|].
  eapply produces_mono; [reflexivity| |apply block_produces with (Rs := Rs)].
  - intros d (ds & H & ->). exists ds. split; [exact H|]. assert (Len : List.length ds = List.length l) by (apply Forall2_len in H; apply Forall2_len in F; congruence).
    unfold oslice. destruct ds as [|d ds]; [destruct l; [contradiction|discriminate]|]. f_equal. f_equal; [unfold slice_head; now rewrite Len|].
    rewrite labelled_oindexed. revert Len. generalize (d :: ds) as xs. generalize 0. clear. induction l as [|c l IH]; intros i xs Len; destruct xs; try discriminate; [reflexivity|].
    cbn. f_equal. apply IH. now injection Len.
  - unfold slice_head. rewrite !in_app_iff. pose proof (dec_nl (List.length l)). cbn in *. intuition discriminate.
  - generalize 0. clear -F. induction F as [|c R l Rs P F IH]; intros i; [constructor|]. cbn. constructor; [split; [apply dec_nl|exact P]|apply IH].
Qed.
Lemma Forall2_swap_map {A} (ws : list A) (R : A -> odoc -> Prop) ds : Forall2 (fun (r : odoc -> Prop) d => r d) (map R ws) ds -> Forall2 R ws ds.
Proof. revert ds. induction ws as [|w ws IH]; intros ds H; inversion H; subst; constructor; auto. Qed.

(** ** Nodes *)
Section Nodes.
  Variables (wide_print : N -> bool) (other : text -> list act) (g : nat -> option cell) (N : nat) (reached : nat -> Prop).
  Hypothesis bound : forall a c, g a = Some c -> a < N.
  Hypothesis clos : closed g reached.
  Notation odoc_of := (word_odoc wide_print g).

  Definition exprc (p : nat) : Cmd := fun W write => h_expr write wide_print other g p.
  Definition wordc (fuel : nat) (w : word) : Cmd := fun W write => h_word write wide_print other g fuel w.
  Lemma leaf_produces n t : produces N n (sayc [Pr t]) (eq (OLeaf t)).
  Proof. apply (scalar_produces N n [Pr t] (Leaf t)); [exact I|apply renders_leaf]. Qed.
  Lemma expr_produces n p : ok_expr g reached (Some p) -> produces N n (exprc p) (expr_odoc wide_print g p).
  Proof.
    intros (_ & e & G & Su).
    set (fs := [("Expr"%string, match e with GNil => None | _ => Some (sayc (a_gexpr wide_print other e)) end)]).
    apply (produces_ext _ _ (ptrc p (structc "ast.Expr" fs))).
    { intros W write s. unfold ptrc, exprc, h_expr. rewrite G. unfold structc, fs. destruct e; reflexivity. }
    eapply produces_mono; [reflexivity| |apply ptr_produces; [exact (bound _ _ G)|]].
    2:{ apply struct_produces with (Rs := [fun o => o = match e with GNil => None | _ => scalar (Some (gexpr_doc wide_print e)) end]); [nonl|].
        constructor; [|constructor]. split; [nonl|]. cbn [snd].
        assert (P : produces N (S n) (sayc (a_gexpr wide_print other e)) (eq (plain_doc (gexpr_doc wide_print e)))) by (apply scalar_produces; [apply clean_gexpr|apply gexpr_renders, Su]).
        destruct e; cbn [field_produces]; try reflexivity; (eapply produces_mono; [reflexivity| |exact P]; intros d <-; reflexivity). }
    intros d [->|(is & (os & F & ->) & ->)]; [apply eo_again|].
    inversion F as [|? o ? os' Ho F']; subst. inversion F'; subst. apply eo_here, G.
  Qed.
  Lemma ptr_field n p : ok_expr g reached p -> field_produces N n (option_map exprc p) (ptr_odoc wide_print g p).
  Proof.
    destruct p as [p|]; intros O; [|constructor]. cbn [option_map field_produces]. eapply produces_mono; [reflexivity| |apply expr_produces, O].
    intros d H. constructor. exact H.
  Qed.
  Lemma text_field n t : field_produces N n (Some (sayc [Pr t])) (fun o => o = Some (OLeaf t)).
  Proof. cbn. eapply produces_mono; [reflexivity| |apply leaf_produces]. intros d <-. reflexivity. Qed.
  Definition opc (o : hop) : option Cmd :=
    match o with
    | HOpcode c => Some (sayc [Pr c])
    | HParts a => Some (fun W write => match g a with Some (CParts ps) => say write (a_op (OpcodeParts ps)) | _ => fault ill_typed end)
    | HNilOp => None
    end.
  Lemma op_field n o : match o with HParts a => exists ps, g a = Some (CParts ps) | _ => True end -> field_produces N n (opc o) (op_odoc g o).
  Proof.
    destruct o as [c|a|]; cbn [opc field_produces].
    - intros _. eapply produces_mono; [reflexivity| |apply leaf_produces]. intros d <-. constructor.
    - intros (ps & G). apply (produces_ext _ _ (sayc (a_op (OpcodeParts ps)))); [intros; rewrite G; reflexivity|].
      eapply produces_mono; [reflexivity| |apply scalar_produces; [apply clean_op|apply op_renders_]]. intros d <-. exact (oo_parts _ _ _ G).
    - intros _. constructor.
  Qed.
  Definition elemsc (ty : string) (elem : word -> Cmd) (sl : slice) : option Cmd :=
    if sl_len sl =? 0 then None else
    Some (fun W write => match g (sl_arr sl) with
         | Some (CArr l) =>
             let ws := firstn (sl_len sl) (skipn (sl_off sl) l) in
             if List.length ws =? sl_len sl then h_slice write ty (map (fun w => elem w W write) ws) else fault ill_typed
         | _ => fault ill_typed
         end).
  Lemma elems_field n ty elem sl ws : ~ In nl (str ty) -> slice_at g sl ws -> Forall (fun w => produces N n (elem w) (odoc_of w)) ws ->
    field_produces N n (elemsc ty elem sl) (fun o => exists args, Forall2 odoc_of ws args /\ o = oslice ty args).
  Proof.
    intros T [Len S] F. unfold elemsc. destruct (Nat.eqb_spec (sl_len sl) 0) as [Z|Z].
    - destruct ws; [|cbn in Len; congruence]. exists []. split; [constructor|reflexivity].
    - destruct S as [->|(a & b & G & La)]; [cbn in Len; contradiction|]. cbn [field_produces].
      apply (produces_ext _ _ (slicec ty (map elem ws))).
      + intros W write s. rewrite G. cbv zeta. rewrite <- La, skipn_app, skipn_all, Nat.sub_diag. cbn [app skipn].
        rewrite Len, firstn_app, firstn_all, Nat.sub_diag. cbn [firstn]. rewrite app_nil_r, Nat.eqb_refl. unfold slicec. now rewrite map_map.
      + eapply produces_mono; [reflexivity| |apply slice_produces with (Rs := map odoc_of ws); [exact T| |]].
        * intros d (ds & H & E). exists ds. split; [apply Forall2_swap_map, H|now symmetry].
        * destruct ws; [cbn in Len; congruence|discriminate].
        * clear -F. induction F; constructor; assumption.
  Qed.
  Definition fieldc (elem : word -> Cmd) (w : word) : option Cmd := match w with WNil => None | _ => Some (elem w) end.
  Lemma word_field n elem w : produces N n (elem w) (odoc_of w) -> field_produces N n (fieldc elem w) (field_odoc odoc_of w).
  Proof.
    intros P. destruct w; cbn; try (eapply produces_mono; [reflexivity| |exact P]; intros d H; constructor; [discriminate|exact H]). constructor.
  Qed.
  Lemma Inv_len seen : Inv N seen -> List.length seen <= N.
  Proof.
    intros [A B]. rewrite <- (map_length fst), <- (seq_length N 0). apply NoDup_incl_length; [exact A|]. intros x I. apply in_map_iff in I. destruct I as ([a b] & <- & I).
    rewrite Forall_forall in B. apply in_seq. specialize (B _ I). lia.
  Qed.

  Lemma word_produces fuel : forall w, ok_value g reached w \/ ok_rule g reached w -> produces N (S N - fuel) (wordc fuel w) (odoc_of w).
  Proof.
    induction fuel as [|fuel IH]; intros w Ok.
    { intros seen line Hi Hn. apply Inv_len in Hi. lia. }
    assert (IH' : forall w, ok_value g reached w \/ ok_rule g reached w -> produces N (S (S N - S fuel)) (wordc fuel w) (odoc_of w)).
    { intros w' Ok'. eapply produces_mono; [|intros d H; exact H|apply IH, Ok']. lia. }
    assert (NIL : In w [WNil; WSExpr None; WExpr None; WRule None] -> produces N (S N - S fuel) (sayc [Pr (str "nil")]) (odoc_of w)).
    { intros I. eapply produces_mono; [reflexivity| |apply leaf_produces]. intros d <-. apply wo_nil, I. }
    destruct w as [[p|]|[p|]|x| |[p|]]; cbn [In] in NIL; try (apply NIL; tauto).
    - destruct Ok as [[Rp (c & G)]|[]]. pose proof (clos _ _ Rp G) as (O1 & O2 & O3 & ws & Sl & Fw).
      set (fs := [("Binding"%string, Some (sayc [Pr (h_binding c)])); ("Op"%string, opc (Heap.h_op c)); ("Type"%string, Some (sayc [Pr (h_type c)]));
                  ("AuxInt"%string, option_map exprc (h_auxint c)); ("Aux"%string, option_map exprc (h_aux c));
                  ("Args"%string, elemsc "[]ast.Value" (wordc fuel) (h_args c));
                  ("Ellipsis"%string, Some (sayc [Pr (str (if h_ellipsis c then "true" else "false"))]));
                  ("Trailing"%string, Some (sayc [Pr (str (if h_trailing c then "true" else "false"))]))]).
      apply (produces_ext _ _ (ptrc p (structc "ast.SExpr" fs))).
      { intros W write s. unfold ptrc, wordc. cbn [h_word]. rewrite G. unfold structc, fs. destruct (Heap.h_op c), (h_auxint c), (h_aux c); unfold elemsc, f_elems; destruct (sl_len (h_args c) =? 0); reflexivity. }
      eapply produces_mono; [reflexivity| |apply ptr_produces; [exact (bound _ _ G)|]].
      2:{ apply struct_produces with (Rs := [fun o => o = Some (OLeaf (h_binding c)); op_odoc g (Heap.h_op c); fun o => o = Some (OLeaf (h_type c));
            ptr_odoc wide_print g (h_auxint c); ptr_odoc wide_print g (h_aux c); fun o => exists args, Forall2 odoc_of ws args /\ o = oslice "[]ast.Value" args;
            fun o => o = Some (OLeaf (str (if h_ellipsis c then "true" else "false"))); fun o => o = Some (OLeaf (str (if h_trailing c then "true" else "false")))]); [nonl|].
          repeat (apply Forall2_cons || apply Forall2_nil); (split; [nonl|cbn [snd]]); try apply text_field.
          - apply op_field, O3.
          - apply ptr_field, O1.
          - apply ptr_field, O2.
          - apply elems_field; [nonl|exact Sl|]. eapply Forall_impl; [|exact Fw]. intros w Hw. apply IH'. now left. }
      intros d [->|(is & (os & F & ->) & ->)]; [apply wo_sexpr_again|].
      repeat match goal with H : Forall2 _ (_ :: _) _ |- _ => inversion H; clear H; subst | H : Forall2 _ [] _ |- _ => inversion H; clear H; subst end.
      match goal with H : exists args, _ |- _ => destruct H as (args & Ha & ->) end.
      match goal with Ho : op_odoc g _ ?o, H1 : ptr_odoc _ _ (h_auxint c) ?ai, H2 : ptr_odoc _ _ (h_aux c) ?a |- _ => exact (wo_sexpr wide_print g p c o ai a ws args G Ho H1 H2 Sl Ha) end.
    - destruct Ok as [Ok|[]]. eapply produces_mono; [reflexivity| |apply expr_produces, Ok]. intros d H. constructor. exact H.
    - eapply produces_mono; [reflexivity| |apply leaf_produces]. intros d <-. constructor.
    - destruct Ok as [[]|[Rp (c & G)]]. pose proof (clos _ _ Rp G) as (O1 & O2 & O3).
      set (fs := [("Match"%string, fieldc (wordc fuel) (h_match c)); ("Condition"%string, option_map exprc (h_cond c));
                  ("Block"%string, Some (sayc [Pr (Quote wide_print (h_block c))])); ("Result"%string, fieldc (wordc fuel) (h_result c))]).
      apply (produces_ext _ _ (ptrc p (structc "ast.Rule" fs))).
      { intros W write s. unfold ptrc, wordc. cbn [h_word]. rewrite G. unfold structc, fs. destruct (h_match c), (h_result c), (h_cond c); reflexivity. }
      eapply produces_mono; [reflexivity| |apply ptr_produces; [exact (bound _ _ G)|]].
      2:{ apply struct_produces with (Rs := [field_odoc odoc_of (h_match c); ptr_odoc wide_print g (h_cond c); fun o => o = Some (OLeaf (Quote wide_print (h_block c))); field_odoc odoc_of (h_result c)]); [nonl|].
          repeat (apply Forall2_cons || apply Forall2_nil); (split; [nonl|cbn [snd]]); try apply text_field.
          - apply word_field, IH'. now left.
          - apply ptr_field, O2.
          - apply word_field, IH'. now left. }
      intros d [->|(is & (os & F & ->) & ->)]; [apply wo_rule_again|].
      repeat match goal with H : Forall2 _ (_ :: _) _ |- _ => inversion H; clear H; subst | H : Forall2 _ [] _ |- _ => inversion H; clear H; subst end.
      match goal with H1 : field_odoc _ (h_match c) ?m, H2 : ptr_odoc _ _ (h_cond c) ?co, H3 : field_odoc _ (h_result c) ?r |- _ => exact (wo_rule wide_print g p c m co r G H1 H2 H3) end.
  Qed.
End Nodes.

(** ** The whole dump *)
Section Root.
  Variables (wide_print : N -> bool) (other : text -> list act) (g : nat -> option cell) (N : nat) (reached : nat -> Prop).
  Hypothesis bound : forall a c, g a = Some c -> a < N.
  Hypothesis clos : closed g reached.
  Definition nodec (fuel : nat) (n : hnode) : Cmd :=
    fun W write => match n with HFile p => h_file write wide_print other g fuel p | HWord w => h_word write wide_print other g fuel w end.
  Lemma node_prints fuel n : N < fuel -> ok_node g reached n ->
    exists d seen, node_odoc wide_print g n d /\ prints (nodec fuel n) [] 0 d seen /\ Inv N seen.
  Proof.
    assert (I0 : Inv N []) by (split; constructor).
    intros Hf Ok. destruct n as [[p|]|w].
    - destruct Ok as [Rp (sl & G)]. pose proof (clos _ _ Rp G) as (ws & Sl & Fw).
      assert (P : produces N 0 (nodec fuel (HFile (Some p))) (fun d => d = ORef p \/ file_odoc wide_print g (Some p) d)).
      { apply (produces_ext _ _ (ptrc p (structc "ast.File" [("Rules"%string, elemsc g "[]*ast.Rule" (wordc wide_print other g fuel) sl)]))).
        { intros W write s. unfold ptrc, nodec, h_file. rewrite G. unfold structc, elemsc, f_elems. destruct (sl_len sl =? 0); reflexivity. }
        eapply produces_mono; [reflexivity| |apply ptr_produces; [exact (bound _ _ G)|]].
        2:{ apply struct_produces with (Rs := [fun o => exists args, Forall2 (word_odoc wide_print g) ws args /\ o = oslice "[]*ast.Rule" args]); [nonl|].
            constructor; [|constructor]. split; [nonl|]. cbn [snd]. apply elems_field; [nonl|exact Sl|]. eapply Forall_impl; [|exact Fw].
            intros w Hw. eapply produces_mono; [|intros d H; exact H|apply (word_produces wide_print other g N reached bound clos fuel); right; exact Hw]. lia. }
        intros d [->|(is & (os & F & ->) & ->)]; [now left|right]. inversion F as [|? o ? os' Ho F']; subst. inversion F'; subst. destruct Ho as (args & Ha & ->).
        exact (fl_some wide_print g p sl ws args G Sl Ha). }
      destruct (P [] 0 I0 (le_n 0)) as (d & seen & [->|R] & Pr & I').
      + destruct Pr as (l & _ & O & _). destruct O as [[] _].
      + exists d, seen. auto.
    - destruct (leaf_produces N 0 (str "nil") [] 0 I0 (le_n 0)) as (d & seen & <- & Pr & I'). exists (OLeaf (str "nil")), seen. split; [constructor|]. split; [exact Pr|exact I'].
    - assert (P : produces N 0 (nodec fuel (HWord w)) (word_odoc wide_print g w)).
      { eapply produces_mono; [|intros d H; exact H|apply (word_produces wide_print other g N reached bound clos fuel w Ok)]. lia. }
      exact (P [] 0 I0 (le_n 0)).
  Qed.

  Lemma node_dump fuel n : N < fuel -> ok_node g reached n ->
    exists d at_line chunks,
      node_odoc wide_print g n d /\ first_met (events d) /\
      (forall a, In (Here a) (events d) -> nth_error (opened d) (at_line a) = Some (Some a)) /\
      List.length (opened d) = List.length (doc_lines 0 [] (spelled at_line d)) /\
      h_Dump wide_print other g fuel n = Ok (page 0 (doc_lines 0 [] (spelled at_line d))) /\
      h_Dump wide_print other g fuel n = Ok (List.concat chunks) /\
      forall W (write : W -> text -> W * option text) w, h_Fprint write wide_print other g fuel n w = Ok (feed write chunks w).
  Proof.
    intros Hf Hok. destruct (node_prints fuel n Hf Hok) as (d & seen & R & (l & Dl & O & S & L & Rn) & [ND _]).
    set (at_line := fun a => match lookup a seen with Some m => m | None => 0 end).
    assert (A : agrees at_line seen) by (intros a m I; unfold at_line; now rewrite (lookup_nodup _ _ _ ND I)).
    rewrite app_nil_r in S.
    assert (F : forall W (write : W -> text -> W * option text) w, h_Fprint write wide_print other g fuel n w = Ok (d_run write (l ++ [Pr [nl]]) w)).
    { intros W write w. unfold h_Fprint, h_print. unfold then_ at 1.
      pose proof (Dl W write {| hp := {| d_w := w; d_err := None; d_indent := 0; d_last := nl; d_line := 0 |}; hp_ptrmap := [] |} eq_refl eq_refl) as E.
      unfold nodec in E. rewrite E. cbn [say hp]. unfold d_run. rewrite fold_left_app. reflexivity. }
    assert (P : h_Dump wide_print other g fuel n = Ok (page 0 (doc_lines 0 [] (spelled at_line d)))).
    { unfold h_Dump. rewrite F. change (fun (w : list ascii) (chunk : text) => (w ++ chunk, None)) with apnd. 
      rewrite (run_page _ (map normed (doc_lines 0 [] (spelled at_line d)))).
      - now rewrite page_normed.
      - rewrite acts_app. change (0, ([], (0, []))) with (0, ([] : list (nat * text), norm 0 [])). rewrite (Rn at_line A) by (intros []).
        cbn [acts fold_left act1 fst snd steps]. rewrite fin_nl; [reflexivity|]. destruct (doc_lines_cons 0 [] (spelled at_line d)) as (x & xs & ->). discriminate. }
    exists d, at_line, (fst (d_run note (l ++ [Pr [nl]]) [])). split; [exact R|]. split; [apply in_order_first, O|]. split; [|split; [|split; [exact P|split]]].
    - intros a I. apply here_in in I. rewrite <- (marks_heres d 0) in I. apply in_map_iff in I. destruct I as ([b m] & E & I). cbn in E. subst b.
      rewrite (A a m) by (rewrite S, <- in_rev; exact I). apply marks_opened in I. rewrite Nat.sub_0_r in I. apply I.
    - rewrite <- L. apply renders_lines, Rn, A.
    - rewrite P. unfold h_Dump in P. rewrite F, run_feed, feed_append in P. cbn [app] in P. congruence.
    - intros W write w. rewrite F, run_feed. reflexivity.
  Qed.
End Root.
