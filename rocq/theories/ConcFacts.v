(** Facts about goroutines that share memory: a program behaves the same at other addresses. *)
From Verif Require Import Text GoAst Ast Expand Printer Smt Heap HeapWalk HeapPrint SpecHeap HeapFacts.
From Coq Require Import Arith Lia Bool.

(** ** Cells that differ by addresses only *)
(** Cells that a goroutine may read ([seen]) and write ([owned]) here and there; [fseen] and [fowned] are
    those that hold an ast.File. *)
Record world := { seen : nat -> nat -> Prop; owned : nat -> nat -> Prop; fseen : nat -> nat -> Prop; fowned : nat -> nat -> Prop }.
Definition le (w w' : world) : Prop :=
  ((forall p q, seen w p q -> seen w' p q) /\ (forall p q, owned w p q -> owned w' p q)) /\
  ((forall p q, fseen w p q -> fseen w' p q) /\ (forall p q, fowned w p q -> fowned w' p q)).
Lemma le_refl w : le w w. Proof. repeat split; auto. Qed.
Lemma le_trans a b c : le a b -> le b c -> le a c. Proof. intros [[A B] [C D]] [[E F] [G H]]. repeat split; auto. Qed.
Definition add (w : world) (a b : nat) : world :=
  {| seen := fun p q => seen w p q \/ (p = a /\ q = b); owned := fun p q => owned w p q \/ (p = a /\ q = b); fseen := fseen w; fowned := fowned w |}.
Definition addf (w : world) (a b : nat) : world :=
  {| seen := seen w; owned := owned w; fseen := fun p q => fseen w p q \/ (p = a /\ q = b); fowned := fun p q => fowned w p q \/ (p = a /\ q = b) |}.
Lemma le_add w a b : le w (add w a b). Proof. repeat split; cbn; auto. Qed.
Lemma le_addf w a b : le w (addf w a b). Proof. repeat split; cbn; auto. Qed.

Definition prel (w : world) (p q : ptr) : Prop := match p, q with None, None => True | Some a, Some b => seen w a b | _, _ => False end.
Definition wrel (w : world) (x y : word) : Prop :=
  match x, y with
  | WSExpr p, WSExpr q | WExpr p, WExpr q | WRule p, WRule q => prel w p q
  | WVar a, WVar b => a = b
  | WNil, WNil => True
  | _, _ => False
  end.
Definition srel (w : world) (s t : slice) : Prop :=
  sl_off s = sl_off t /\ sl_len s = sl_len t /\ sl_cap s = sl_cap t /\ ((sl_len s = 0 /\ sl_cap s = 0) \/ seen w (sl_arr s) (sl_arr t)).
Definition orel (w : world) (x y : hop) : Prop :=
  match x, y with HOpcode a, HOpcode b => a = b | HParts a, HParts b => seen w a b | HNilOp, HNilOp => True | _, _ => False end.
Definition hsrel (w : world) (s t : hsexpr) : Prop :=
  h_binding s = h_binding t /\ orel w (h_op s) (h_op t) /\ h_type s = h_type t /\ prel w (h_auxint s) (h_auxint t) /\ prel w (h_aux s) (h_aux t) /\
  srel w (h_args s) (h_args t) /\ h_ellipsis s = h_ellipsis t /\ h_trailing s = h_trailing t.
Definition hrrel (w : world) (r t : hrule) : Prop :=
  wrel w (h_match r) (h_match t) /\ prel w (h_cond r) (h_cond t) /\ h_block r = h_block t /\ wrel w (h_result r) (h_result t).
Definition crel (w : world) (c d : cell) : Prop :=
  match c, d with
  | CSExpr s, CSExpr t => hsrel w s t
  | CExpr e, CExpr e' => e = e'
  | CRule r, CRule t => hrrel w r t
  | CArr a, CArr b => Forall2 (wrel w) a b
  | CParts a, CParts b => a = b
  | _, _ => False
  end.

Section Mono.
  Variables w w' : world.
  Hypothesis L : le w w'.
  Lemma prel_le p q : prel w p q -> prel w' p q. Proof. destruct p, q; cbn; auto. apply L. Qed.
  Lemma wrel_le p q : wrel w p q -> wrel w' p q. Proof. destruct p, q; cbn; auto using prel_le. Qed.
  Lemma srel_le p q : srel w p q -> srel w' p q.
  Proof. intros (A & B & C & [D|D]); repeat (split; [assumption|]); [left; exact D|right; apply L; exact D]. Qed.
  Lemma orel_le p q : orel w p q -> orel w' p q. Proof. destruct p, q; cbn; auto. apply L. Qed.
  Lemma hsrel_le p q : hsrel w p q -> hsrel w' p q.
  Proof. intros (A & B & C & D & E & F & G & H). unfold hsrel. auto 10 using orel_le, prel_le, srel_le. Qed.
  Lemma hrrel_le p q : hrrel w p q -> hrrel w' p q.
  Proof. intros (A & B & C & D). unfold hrrel. auto 10 using wrel_le, prel_le. Qed.
  Lemma wrels_le p q : Forall2 (wrel w) p q -> Forall2 (wrel w') p q.
  Proof. intros F. eapply Forall2_weak; [|exact F]. intros a b _. apply wrel_le. Qed.
  Lemma crel_le p q : crel w p q -> crel w' p q.
  Proof. destruct p, q; cbn; auto using hsrel_le, hrrel_le, srel_le, wrels_le. Qed.
End Mono.
Global Hint Resolve le_refl le_add le_addf prel_le wrel_le srel_le orel_le hsrel_le hrrel_le wrels_le crel_le : conc.

(** ** Programs that differ by addresses only *)
Definition rrel {A B} (V : A -> B -> Prop) (r : res A) (s : res B) : Prop :=
  match r, s with Ok a, Ok b => V a b | Err e, Err f => e = f | Panic e, Panic f => e = f | _, _ => False end.
Inductive sim {A B} (V : world -> A -> B -> Prop) : world -> prog A -> prog B -> Prop :=
| sim_done w r s : rrel (V w) r s -> sim V w (Done r) (Done s)
| sim_load w p q j k : seen w p q -> (forall c d, crel w c d -> sim V w (j (Some c)) (k (Some d))) -> sim V w (Load p j) (Load q k)
| sim_new w c d j k : crel w c d -> (forall a b, sim V (add w a b) (j a) (k b)) -> sim V w (New c j) (New d k)
| sim_store w p q c d j k : owned w p q -> crel w c d -> sim V w j k -> sim V w (Store p c j) (Store q d k)
| sim_loadf w p q j k : fseen w p q -> (forall s t, srel w s t -> sim V w (j (Some (CFile s))) (k (Some (CFile t)))) -> sim V w (Load p j) (Load q k)
| sim_newf w s t j k : srel w s t -> (forall a b, sim V (addf w a b) (j a) (k b)) -> sim V w (New (CFile s) j) (New (CFile t) k)
| sim_storef w p q s t j k : fowned w p q -> srel w s t -> sim V w j k -> sim V w (Store p (CFile s) j) (Store q (CFile t) k).

Definition mono {A B} (V : world -> A -> B -> Prop) : Prop := forall w w' a b, le w w' -> V w a b -> V w' a b.

Lemma sim_bind {A B C D} (V : world -> A -> B -> Prop) (U : world -> C -> D -> Prop) w m n j k :
  sim V w m n -> (forall w' a b, le w w' -> V w' a b -> sim U w' (j a) (k b)) -> sim U w (mbind m j) (mbind n k).
Proof.
  intros S. induction S as [w r s H|w p q f g Hs _ IH|w c d f g Hc _ IH|w p q c d f g Ho Hc _ IH|w p q f g Hs _ IH|w s t f g Hc _ IH|w p q s t f g Ho Hc _ IH]; intros K; cbn [mbind].
  - destruct r, s; cbn in H; try contradiction; [apply K; auto with conc|subst; constructor; reflexivity..].
  - constructor; [exact Hs|]. intros c d X. apply IH; auto.
  - constructor; [exact Hc|]. intros a b. apply IH. intros w' x y L. apply K. exact (le_trans _ _ _ (le_add _ _ _) L).
  - constructor; auto.
  - apply sim_loadf; [exact Hs|]. intros c d X. apply IH; auto.
  - apply sim_newf; [exact Hc|]. intros a b. apply IH. intros w' x y L. apply K. exact (le_trans _ _ _ (le_addf _ _ _) L).
  - apply sim_storef; auto.
Qed.
Lemma sim_weak {A B} (V U : world -> A -> B -> Prop) w m n : sim V w m n -> (forall w' a b, le w w' -> V w' a b -> U w' a b) -> sim U w m n.
Proof.
  intros S. induction S as [w r s H|w p q f g Hs _ IH|w c d f g Hc _ IH|w p q c d f g Ho Hc _ IH|w p q f g Hs _ IH|w s t f g Hc _ IH|w p q s t f g Ho Hc _ IH]; intros K;
    [apply sim_done|apply sim_load|apply sim_new|apply sim_store|apply sim_loadf|apply sim_newf|apply sim_storef]; auto.
  - destruct r, s; cbn in *; auto with conc.
  - intros a b. apply IH. intros w' x y L. apply K. exact (le_trans _ _ _ (le_add _ _ _) L).
  - intros a b. apply IH. intros w' x y L. apply K. exact (le_trans _ _ _ (le_addf _ _ _) L).
Qed.
Lemma sim_ret {A B} (V : world -> A -> B -> Prop) w a b : V w a b -> sim V w (ret a) (ret b).
Proof. intros H. constructor. exact H. Qed.
Lemma sim_panics {A B} (V : world -> A -> B -> Prop) w m : sim V w (panics m) (panics m).
Proof. constructor. reflexivity. Qed.
Lemma sim_fails {A B} (V : world -> A -> B -> Prop) w m : sim V w (fails m) (fails m).
Proof. constructor. reflexivity. Qed.
Definition Veq {A} (w : world) (a b : A) : Prop := a = b.
Lemma sim_lift {A} w (r : res A) : sim Veq w (lift r) (lift r).
Proof. constructor. destruct r; reflexivity. Qed.
Lemma sim_get w p q : seen w p q -> sim crel w (get p) (get q).
Proof. intros S. constructor; [exact S|]. intros c d H. apply sim_ret. exact H. Qed.
Lemma sim_alloc w c d : crel w c d -> sim (fun w a b => seen w a b /\ owned w a b) w (alloc c) (alloc d).
Proof. intros S. constructor; [exact S|]. intros a b. apply sim_ret. cbn. auto. Qed.
Definition fmine (w : world) (p q : nat) : Prop := fseen w p q /\ fowned w p q.
Lemma sim_allocf w s t : srel w s t -> sim fmine w (alloc (CFile s)) (alloc (CFile t)).
Proof. intros R. apply sim_newf; [exact R|]. intros a b. apply sim_ret. split; cbn; auto. Qed.
Lemma sim_putf w p q s t : fowned w p q -> srel w s t -> sim Veq w (store p (CFile s)) (store q (CFile t)).
Proof. intros S H. apply sim_storef; auto. apply sim_ret. reflexivity. Qed.
Lemma sim_getf w p q : fseen w p q -> sim (fun w c d => exists s t, c = CFile s /\ d = CFile t /\ srel w s t) w (get p) (get q).
Proof. intros S. apply sim_loadf; [exact S|]. intros s t H. apply sim_ret. eauto 10. Qed.
Lemma sim_put w p q c d : owned w p q -> crel w c d -> sim Veq w (store p c) (store q d).
Proof. intros S H. constructor; auto. apply sim_ret. reflexivity. Qed.
Ltac cases c d H := destruct c, d; cbn in H; try contradiction; try apply sim_panics.
Lemma sim_get_sexpr w p q : seen w p q -> sim hsrel w (get_sexpr p) (get_sexpr q).
Proof. intros S. eapply sim_bind; [apply sim_get; exact S|]. intros w' c d L H. cases c d H. apply sim_ret. exact H. Qed.
Lemma sim_get_rule w p q : seen w p q -> sim hrrel w (get_rule p) (get_rule q).
Proof. intros S. eapply sim_bind; [apply sim_get; exact S|]. intros w' c d L H. cases c d H. apply sim_ret. exact H. Qed.
Definition wrels (w : world) := Forall2 (wrel w).
Lemma sim_get_arr w p q : seen w p q -> sim wrels w (get_arr p) (get_arr q).
Proof. intros S. eapply sim_bind; [apply sim_get; exact S|]. intros w' c d L H. cases c d H. apply sim_ret. exact H. Qed.

Lemma Forall2_nth {A B} (P : A -> B -> Prop) l m : Forall2 P l m -> forall i,
  match nth_error l i, nth_error m i with Some a, Some b => P a b | None, None => True | _, _ => False end.
Proof. intros F. induction F; intros [|i]; cbn; auto. apply IHF. Qed.
Lemma Forall2_firstn {A B} (P : A -> B -> Prop) l m : Forall2 P l m -> forall n, Forall2 P (firstn n l) (firstn n m).
Proof. intros F. induction F; intros [|n]; cbn; constructor; auto. Qed.
Lemma Forall2_skipn {A B} (P : A -> B -> Prop) l m : Forall2 P l m -> forall n, Forall2 P (skipn n l) (skipn n m).
Proof. intros F. induction F; intros [|n]; cbn; auto. Qed.
Lemma Forall2_same {A} (P : A -> A -> Prop) l : (forall a, In a l -> P a a) -> Forall2 P l l.
Proof. induction l as [|a l IH]; intros H; constructor; [apply H; cbn; auto|apply IH; intros; apply H; cbn; auto]. Qed.

Lemma sim_at w s t i : srel w s t -> sim wrel w (at_ s i) (at_ t i).
Proof.
  intros (Eo & El & Ec & R). unfold at_. rewrite <- El, <- Eo. destruct (Nat.ltb_spec i (sl_len s)) as [Li|Li]; [|apply sim_panics].
  destruct R as [[Z _]|R]; [lia|]. eapply sim_bind; [apply sim_get_arr; exact R|]. intros w' l m L F. pose proof (Forall2_nth _ _ _ F (sl_off s + i)) as N.
  destruct (nth_error l _), (nth_error m _); try contradiction; [apply sim_ret; exact N|apply sim_panics].
Qed.
Lemma sim_elements w s t : srel w s t -> sim wrels w (elements s) (elements t).
Proof.
  intros (Eo & El & Ec & R). unfold elements. rewrite <- El, <- Eo. destruct (Nat.eqb_spec (sl_len s) 0) as [Z|Z]; [apply sim_ret; constructor|].
  destruct R as [[Z' _]|R]; [lia|]. eapply sim_bind; [apply sim_get_arr; exact R|]. intros w' l m L F. apply sim_ret. apply Forall2_firstn, Forall2_skipn. exact F.
Qed.
(** A slice that may be appended to. *)
Definition mrel (w : world) (s t : slice) : Prop := srel w s t /\ (sl_cap s = 0 \/ owned w (sl_arr s) (sl_arr t)).
Lemma mrel_le w w' s t : le w w' -> mrel w s t -> mrel w' s t.
Proof. intros L [A B]. split; [eauto with conc|]. destruct B as [B|B]; [left; exact B|right; apply L; exact B]. Qed.
Global Hint Resolve mrel_le : conc.
Lemma mrel_nil w : mrel w nil_slice nil_slice.
Proof. split; [|left; reflexivity]. repeat split. left. split; reflexivity. Qed.
Lemma sim_literal w a b : Forall2 (wrel w) a b -> sim srel w (literal a) (literal b).
Proof.
  intros F. eapply sim_bind; [apply sim_alloc; exact F|]. intros w' x y L [S _]. apply sim_ret. pose proof (Forall2_length _ _ _ F) as E. repeat split; cbn; auto.
Qed.
Lemma repeat_rel w z z' n : wrel w z z' -> Forall2 (wrel w) (repeat z n) (repeat z' n).
Proof. intros R. induction n; constructor; assumption. Qed.
Lemma zero_rel w a b : forall w', Forall2 (wrel w) a b -> wrel w' (zero a) (zero b).
Proof. intros w' F. destruct F as [|x y a b R F]; [exact I|]. destruct x, y; cbn in *; auto. Qed.
Lemma sim_make w z n : wrel w z z -> sim mrel w (make z n) (make z n).
Proof.
  intros R. eapply sim_bind; [apply sim_alloc, repeat_rel, R|]. intros w' x y L [S O]. apply sim_ret. split; [repeat split; cbn; auto|cbn; auto].
Qed.

Section Code.
  Variable spare : nat -> nat -> nat.
  Lemma sim_append w s t a b : mrel w s t -> Forall2 (wrel w) a b -> sim mrel w (append spare s a) (append spare t b).
  Proof.
    intros [R O] F. pose proof (Forall2_length _ _ _ F) as E. pose proof R as (Eo & El & Ec & Rr). unfold append. rewrite <- E, <- El, <- Ec, <- Eo.
    destruct (Nat.leb_spec (sl_len s + List.length a) (sl_cap s)) as [Le|Le].
    - destruct (Nat.eqb_spec (List.length a) 0) as [Z|Z]; [apply sim_ret; split; assumption|].
      destruct O as [O|O]; [lia|]. destruct Rr as [[_ Z']|Rr]; [lia|]. eapply sim_bind; [apply sim_get_arr; exact Rr|]. intros w1 l m L1 Fl.
      eapply sim_bind; [apply sim_put; [apply L1; exact O|]|].
      { cbn [crel]. unfold overwrite. rewrite <- E. apply Forall2_app; [apply Forall2_firstn; exact Fl|]. apply Forall2_app; [eauto with conc|apply Forall2_skipn; exact Fl]. }
      intros w2 _ _ L2 _. apply sim_ret. pose proof (le_trans _ _ _ L1 L2) as L. split; [|right; apply L; exact O]. repeat split; cbn; auto. right. apply L. exact Rr.
    - eapply sim_bind; [apply sim_elements; exact R|]. intros w1 l m L1 Fl. eapply sim_bind; [apply sim_alloc|].
      { cbn [crel]. apply Forall2_app; [exact Fl|]. apply Forall2_app; [eauto with conc|eapply repeat_rel, zero_rel, F]. }
      intros w2 x y L2 [S2 O2]. apply sim_ret. split; [repeat split; cbn; auto|cbn; auto].
  Qed.
  Lemma sim_expandop w x y : orel w x y -> sim Veq w (h_expandop x) (h_expandop y).
  Proof.
    intros R. destruct x, y; cbn in R; try contradiction; cbn [h_expandop]; [subst; apply sim_lift| |apply sim_lift].
    eapply sim_bind; [apply sim_get; exact R|]. intros w' c d L H. cases c d H. subst. apply sim_lift.
  Qed.
  Definition nrel (w : world) (a b : nat * list slice) : Prop := fst a = fst b /\ Forall2 (srel w) (snd a) (snd b).
  Lemma srels_le w w' a b : le w w' -> Forall2 (srel w) a b -> Forall2 (srel w') a b.
  Proof. intros L F. eapply Forall2_weak; [|exact F]. intros x y _. apply srel_le. exact L. Qed.
  Lemma sim_args_loop w e s t : (forall w' x y, le w w' -> wrel w' x y -> sim srel w' (e x) (e y)) -> srel w s t ->
    forall k j n w', le w w' -> sim nrel w' (h_args_loop e s k j n) (h_args_loop e t k j n).
  Proof.
    intros He R. induction k as [|k IH]; intros j n w0 L0; cbn [h_args_loop]; [apply sim_ret; split; [reflexivity|constructor]|].
    eapply sim_bind; [apply sim_at; eauto with conc|]. intros w1 x y L1 Rx. pose proof (le_trans _ _ _ L0 L1) as L01. eapply sim_bind; [apply He; assumption|]. intros w2 u v L2 Ru.
    replace (sl_len v) with (sl_len u) by (apply Ru). eapply sim_bind; [apply sim_lift|]. intros w3 n1 n2 L3 En. unfold Veq in En. subst n2.
    eapply sim_bind; [apply IH; exact (le_trans _ _ _ L01 (le_trans _ _ _ L2 L3))|]. intros w4 r1 r2 L4 [E F]. apply sim_ret. split; [exact E|]. cbn [snd]. constructor; [|exact F].
    eapply srel_le; [exact (le_trans _ _ _ L3 L4)|exact Ru].
  Qed.
  Lemma sim_pick w a b i : Forall2 (srel w) a b -> forall w' s t, le w w' -> mrel w' s t -> sim mrel w' (pick_args spare a i s) (pick_args spare b i t).
  Proof.
    intros F. induction F as [|x y a b R F IH]; intros w0 s t L0 Ms; cbn [pick_args]; [apply sim_ret; exact Ms|].
    replace (sl_len y) with (sl_len x) by (apply R). eapply sim_bind; [apply sim_at; eauto with conc|]. intros w1 u v L1 Ru.
    eapply sim_bind; [apply sim_append; [eauto with conc|constructor; [exact Ru|constructor]]|]. intros w2 s' t' L2 Ms'. apply IH; [|exact Ms']. exact (le_trans _ _ _ L0 (le_trans _ _ _ L1 L2)).
  Qed.
  Lemma sim_alternates w p q os a b : seen w p q -> Forall2 (srel w) a b ->
    forall k i w' s t, le w w' -> mrel w' s t -> sim mrel w' (alternates spare p os a k i s) (alternates spare q os b k i t).
  Proof.
    intros Sp F. induction k as [|k IH]; intros i w0 s t L0 Ms; cbn [alternates]; [apply sim_ret; exact Ms|].
    eapply sim_bind; [apply sim_get_sexpr; apply L0; exact Sp|]. intros w1 c d L1 Rc. eapply sim_bind; [apply sim_alloc; exact Rc|]. intros w2 u v L2 [Su Ou].
    eapply sim_bind; [apply sim_lift|]. intros w3 o o' L3 Eo. unfold Veq in Eo. subst o'. eapply sim_bind; [apply sim_get_sexpr; apply L3; exact Su|]. intros w4 c4 d4 L4 (A & B & C & D & E & G & H & J).
    pose proof (le_trans _ _ _ L3 L4) as L34. eapply sim_bind; [apply sim_put; [apply L34; exact Ou|]|]. { cbn. unfold hsrel. cbn. auto 10. }
    intros w5 _ _ L5 _. pose proof (le_trans _ _ _ L34 L5) as L35. pose proof (le_trans _ _ _ L0 (le_trans _ _ _ L1 L2)) as L02. pose proof (le_trans _ _ _ L02 L35) as L05.
    eapply sim_bind; [apply (sim_pick w a b i F w5 _ _ L05), mrel_nil|]. intros w6 x y L6 [Rx _]. pose proof (le_trans _ _ _ L35 L6) as L36.
    eapply sim_bind; [apply sim_get_sexpr; apply L36; exact Su|]. intros w7 c7 d7 L7 (A' & B' & C' & D' & E' & G' & H' & J'). pose proof (le_trans _ _ _ L36 L7) as L37.
    eapply sim_bind; [apply sim_put; [apply L37; exact Ou|]|]. { cbn. unfold hsrel. cbn. auto 10 using (srel_le _ _ L7). }
    intros w8 _ _ L8 _. pose proof (le_trans _ _ _ L37 L8) as L38. pose proof (le_trans _ _ _ (le_trans _ _ _ L1 L2) L38) as L18.
    eapply sim_bind; [apply sim_append; [eapply mrel_le; [exact L18|exact Ms]|constructor; [cbn; apply L38; exact Su|constructor]]|].
    intros w9 s' t' L9 Ms'. apply IH; [|exact Ms']. exact (le_trans _ _ _ L02 (le_trans _ _ _ L38 L9)).
  Qed.
  Lemma sim_expandvalue fuel : forall w x y, wrel w x y -> sim srel w (h_expandvalue spare fuel x) (h_expandvalue spare fuel y).
  Proof.
    induction fuel as [|fuel IH]; intros w x y R; cbn [h_expandvalue]; [apply sim_panics|].
    destruct x as [p|p|x| |p], y as [q|q|y| |q]; cbn in R; try contradiction; try apply sim_fails.
    - destruct p as [p|], q as [q|]; cbn in R; try contradiction; [|apply sim_panics].
      eapply sim_bind; [apply sim_get_sexpr; exact R|]. intros w1 c d L1 (A & B & C & D & E & G & H & J). eapply sim_bind; [apply sim_expandop; exact B|].
      intros w2 os os' L2 Eo. unfold Veq in Eo. subst os'. replace (sl_len (h_args d)) with (sl_len (h_args c)) by (apply G).
      eapply sim_bind; [eapply sim_args_loop; [intros; apply IH; assumption|eapply srel_le; [exact L2|exact G]|apply le_refl]|].
      intros w3 [n1 a] [n2 b] L3 [En F]. cbn [fst snd] in *. subst n2. pose proof (le_trans _ _ _ L1 (le_trans _ _ _ L2 L3)) as L. destruct (n1 =? 1).
      + apply sim_literal. constructor; [cbn; apply L; exact R|constructor].
      + eapply sim_bind; [apply sim_make; exact I|]. intros w4 s t L4 Ms. apply (sim_weak mrel); [|intros ? ? ? ? X; exact (proj1 X)].
        eapply sim_alternates; [|eapply srels_le; [exact L4|exact F]|apply le_refl|exact Ms]. apply L4, L, R.
    - apply sim_literal. constructor; [exact R|constructor].
    - apply sim_literal. constructor; [exact R|constructor].
    - apply sim_panics.
  Qed.
  Lemma sim_new_rules w p q ms rs ms' rs' : seen w p q -> srel w ms ms' -> srel w rs rs' ->
    forall k i w' s t, le w w' -> mrel w' s t -> sim mrel w' (new_rules spare p ms rs k i s) (new_rules spare q ms' rs' k i t).
  Proof.
    intros Sp Rm Rr. induction k as [|k IH]; intros i w0 s t L0 Ms; cbn [new_rules]; [apply sim_ret; exact Ms|].
    replace (sl_len ms') with (sl_len ms) by (apply Rm). replace (sl_len rs') with (sl_len rs) by (apply Rr).
    eapply sim_bind; [apply sim_at; eauto with conc|]. intros w1 m m' L1 Hm. pose proof (le_trans _ _ _ L0 L1) as L01.
    eapply sim_bind; [apply sim_get_rule; apply L01; exact Sp|]. intros w2 c d L2 (A & B & C & D). pose proof (le_trans _ _ _ L01 L2) as L02.
    eapply sim_bind; [apply sim_at; eauto with conc|]. intros w3 x x' L3 Hx. eapply sim_bind; [apply sim_alloc|].
    { cbn. unfold hrrel. cbn. split; [eapply wrel_le; [exact (le_trans _ _ _ L2 L3)|exact Hm]|]. split; [eauto with conc|]. split; [exact C|exact Hx]. }
    intros w4 a b L4 [Sa _]. pose proof (le_trans _ _ _ L3 L4) as L34. eapply sim_bind; [apply sim_append; [|constructor; [exact Sa|constructor]]|].
    { eapply mrel_le; [|exact Ms]. exact (le_trans _ _ _ (le_trans _ _ _ L1 L2) L34). }
    intros w5 s' t' L5 Ms'. apply IH; [|exact Ms']. exact (le_trans _ _ _ L02 (le_trans _ _ _ L34 L5)).
  Qed.
  Lemma sim_expandrule fuel w p q : prel w p q -> sim srel w (h_expandrule spare fuel p) (h_expandrule spare fuel q).
  Proof.
    intros R. destruct p as [p|], q as [q|]; cbn in R; try contradiction; cbn [h_expandrule]; [|apply sim_panics].
    eapply sim_bind; [apply sim_get_rule; exact R|]. intros w1 c d L1 (A & B & C & D). eapply sim_bind; [apply sim_expandvalue; exact A|]. intros w2 ms ms' L2 Rm.
    pose proof (le_trans _ _ _ L1 L2) as L12. eapply sim_bind; [apply sim_get_rule; apply L12; exact R|]. intros w3 c3 d3 L3 (A3 & B3 & C3 & D3).
    eapply sim_bind; [apply sim_expandvalue; exact D3|]. intros w4 rs rs' L4 Rr. replace (sl_len ms') with (sl_len ms) by (apply Rm). replace (sl_len rs') with (sl_len rs) by (apply Rr).
    eapply sim_bind; [apply sim_lift|]. intros w5 n n' L5 En. unfold Veq in En. subst n'. pose proof (le_trans _ _ _ L12 (le_trans _ _ _ L3 (le_trans _ _ _ L4 L5))) as L. destruct (n =? 1).
    - apply sim_literal. constructor; [cbn; apply L; exact R|constructor].
    - eapply sim_bind; [apply sim_make; exact I|]. intros w6 s t L6 Ms. apply (sim_weak mrel); [|intros ? ? ? ? X; exact (proj1 X)].
      eapply (sim_new_rules w6); [apply L6, L, R| | |apply le_refl|exact Ms].
      + eapply srel_le; [|exact Rm]. exact (le_trans _ _ _ L3 (le_trans _ _ _ L4 (le_trans _ _ _ L5 L6))).
      + eapply srel_le; [|exact Rr]. exact (le_trans _ _ _ L5 L6).
  Qed.
  Lemma sim_expandrules fuel w s t : srel w s t -> forall k j w' x y, le w w' -> mrel w' x y ->
    sim mrel w' (h_expandrules spare fuel s k j x) (h_expandrules spare fuel t k j y).
  Proof.
    intros R. induction k as [|k IH]; intros j w0 x y L0 Ms; cbn [h_expandrules]; [apply sim_ret; exact Ms|].
    eapply sim_bind; [apply sim_at; eauto with conc|]. intros w1 u v L1 Ru. destruct u, v; cbn in Ru; try contradiction; try apply sim_panics.
    eapply sim_bind; [apply sim_expandrule; exact Ru|]. intros w2 e e' L2 Re. eapply sim_bind; [apply sim_elements; exact Re|]. intros w3 a b L3 F.
    eapply sim_bind; [apply sim_append; [|exact F]|]. { eapply mrel_le; [|exact Ms]. exact (le_trans _ _ _ L1 (le_trans _ _ _ L2 L3)). }
    intros w4 x' y' L4 Ms'. apply IH; [|exact Ms']. exact (le_trans _ _ _ L0 (le_trans _ _ _ L1 (le_trans _ _ _ L2 (le_trans _ _ _ L3 L4)))).
  Qed.
  Lemma sim_ExpandAlternates fuel w f f' : fseen w f f' -> fowned w f f' -> sim Veq w (h_ExpandAlternates spare fuel (Some f)) (h_ExpandAlternates spare fuel (Some f')).
  Proof.
    intros S O. cbn [h_ExpandAlternates]. eapply sim_bind; [apply sim_getf; exact S|]. intros w1 c d L1 (rules & rules0 & -> & -> & H).
    replace (sl_len rules0) with (sl_len rules) by (apply H). eapply sim_bind; [eapply sim_expandrules; [exact H|apply le_refl|apply mrel_nil]|].
    intros w2 x y L2 [R _]. apply sim_putf; [apply L2, L1, O|exact R].
  Qed.
End Code.

Lemma sim_walk_parts w ps : sim Veq w (h_walk_parts ps) (h_walk_parts ps).
Proof. induction ps as [|[]]; cbn [h_walk_parts]; auto; [apply sim_ret; reflexivity|apply sim_panics]. Qed.
Lemma sim_walk_op w x y : orel w x y -> sim Veq w (h_walk_op x) (h_walk_op y).
Proof.
  intros R. destruct x, y; cbn in R; try contradiction; cbn [h_walk_op]; [apply sim_ret; reflexivity| |apply sim_panics].
  eapply sim_bind; [apply sim_get; exact R|]. intros w' c d L H. cases c d H. subst. apply sim_walk_parts.
Qed.
Lemma sim_walk_args w e s t : (forall w' x y b, le w w' -> wrel w' x y -> sim Veq w' (e x b) (e y b)) -> srel w s t ->
  forall k j b w', le w w' -> sim Veq w' (h_walk_args e s k j b) (h_walk_args e t k j b).
Proof.
  intros He R. induction k as [|k IH]; intros j b w0 L0; cbn [h_walk_args]; [apply sim_ret; reflexivity|].
  eapply sim_bind; [apply sim_at; eauto with conc|]. intros w1 x y L1 Rx. eapply sim_bind; [apply He; [exact (le_trans _ _ _ L0 L1)|exact Rx]|].
  intros w2 b1 b2 L2 E. unfold Veq in E. subst b2. apply IH. exact (le_trans _ _ _ L0 (le_trans _ _ _ L1 L2)).
Qed.
Lemma test_rel w x c d : hsrel w c d -> h_test x c = h_test x d.
Proof.
  intros (A & B & C & D & E & G & H & J). destruct x; cbn [h_test]; [rewrite A; reflexivity|rewrite C; reflexivity| | |exact H|exact J].
  - destruct (h_aux c), (h_aux d); cbn in E; try contradiction; reflexivity.
  - destruct (h_auxint c), (h_auxint d); cbn in D; try contradiction; reflexivity.
Qed.
Lemma sim_walk f fuel : forall w x y b, wrel w x y -> sim Veq w (h_walk f fuel x b) (h_walk f fuel y b).
Proof.
  induction fuel as [|fuel IH]; intros w x y b R; cbn [h_walk]; [apply sim_panics|]. destruct b; [apply sim_ret; reflexivity|].
  destruct x as [p|p|x| |p], y as [q|q|y| |q]; cbn in R; try contradiction; try apply sim_panics; try (apply sim_ret; reflexivity).
  destruct p as [p|], q as [q|]; cbn in R; try contradiction; [|apply sim_panics].
  eapply sim_bind; [apply sim_get_sexpr; exact R|]. intros w1 c d L1 Rc. rewrite (test_rel _ f _ _ Rc). destruct (h_test f d); [apply sim_ret; reflexivity|].
  destruct Rc as (A & B & C & D & E & G & H & J). eapply sim_bind; [apply sim_walk_op; exact B|]. intros w2 b1 b2 L2 Eb. unfold Veq in Eb. subst b2.
  replace (sl_len (h_args d)) with (sl_len (h_args c)) by (apply G). eapply sim_walk_args; [intros; apply IH; assumption|eapply srel_le; [exact L2|exact G]|apply le_refl].
Qed.
Lemma sim_has f fuel w p q : seen w p q -> sim Veq w (h_has f fuel (Some p)) (h_has f fuel (Some q)).
Proof.
  intros R. cbn [h_has]. eapply sim_bind; [apply sim_get_rule; exact R|]. intros w1 c d L1 (A & B & C & D). eapply sim_bind; [apply sim_walk; exact A|].
  intros w2 b1 b2 L2 Eb. unfold Veq in Eb. subst b2. eapply sim_bind; [apply sim_get_rule; apply L2, L1, R|]. intros w3 c3 d3 L3 (A3 & B3 & C3 & D3). apply sim_walk. exact D3.
Qed.

Ltac veq E := unfold Veq in E; subst.
Section PrintCode.
  Context {W : Type}.
  Variable write : W -> text -> W * option text.
  Lemma sim_op w x y p : orel w x y -> sim Veq w (hp_op write x p) (hp_op write y p).
  Proof.
    intros R. destruct x, y; cbn in R; try contradiction; cbn [hp_op]; [subst; apply sim_ret; reflexivity| |apply sim_ret; reflexivity].
    eapply sim_bind; [apply sim_get; exact R|]. intros w' c d L H. cases c d H. subst. apply sim_ret. reflexivity.
  Qed.
  Lemma sim_expr w x y p : prel w x y -> sim Veq w (hp_expr write x p) (hp_expr write y p).
  Proof.
    intros R. destruct x, y; cbn in R; try contradiction; cbn [hp_expr]; [|apply sim_panics].
    eapply sim_bind; [apply sim_get; exact R|]. intros w' c d L H. cases c d H. subst. apply sim_ret. reflexivity.
  Qed.
  Lemma sim_opt w x y a b p : prel w x y -> sim Veq w (hp_opt write x a b p) (hp_opt write y a b p).
  Proof.
    intros R. unfold hp_opt. destruct x, y; cbn in R; try contradiction; [|apply sim_ret; reflexivity].
    eapply sim_bind; [apply sim_expr; exact R|]. intros w' c d L E. veq E. apply sim_ret. reflexivity.
  Qed.
  Lemma sim_pargs w e s t : (forall w' x y p, le w w' -> wrel w' x y -> sim Veq w' (e x p) (e y p)) -> srel w s t ->
    forall k j p w', le w w' -> sim Veq w' (hp_args write e s k j p) (hp_args write e t k j p).
  Proof.
    intros He R. induction k as [|k IH]; intros j p w0 L0; cbn [hp_args]; [apply sim_ret; reflexivity|].
    eapply sim_bind; [apply sim_at; eauto with conc|]. intros w1 x y L1 Rx. eapply sim_bind; [apply He; [exact (le_trans _ _ _ L0 L1)|exact Rx]|].
    intros w2 p1 p2 L2 E. veq E. apply IH. exact (le_trans _ _ _ L0 (le_trans _ _ _ L1 L2)).
  Qed.
  Lemma sim_pvalue fuel : forall w x y p, wrel w x y -> sim Veq w (hp_value write fuel x p) (hp_value write fuel y p).
  Proof.
    induction fuel as [|fuel IH]; intros w x y p0 R; cbn [hp_value]; [apply sim_panics|].
    destruct x as [p|p|x| |p], y as [q|q|y| |q]; cbn in R; try contradiction; try apply sim_panics; try (subst; apply sim_ret; reflexivity); [|apply sim_expr; exact R].
    destruct p as [p|], q as [q|]; cbn in R; try contradiction; [|apply sim_panics].
    eapply sim_bind; [apply sim_get_sexpr; exact R|]. intros w1 c d L1 (A & B & C & D & E & G & H & J). cbn zeta. rewrite A, C, H, J.
    replace (sl_len (h_args d)) with (sl_len (h_args c)) by (apply G).
    eapply sim_bind; [apply sim_op; exact B|]. intros w2 p1 p1' L2 E2. veq E2.
    eapply sim_bind; [apply sim_opt; eauto with conc|]. intros w3 p2 p2' L3 E3. veq E3. pose proof (le_trans _ _ _ L2 L3) as L23.
    eapply sim_bind; [apply sim_opt; eauto with conc|]. intros w4 p3 p3' L4 E4. veq E4. pose proof (le_trans _ _ _ L23 L4) as L24.
    eapply sim_bind; [eapply sim_pargs; [intros; apply IH; assumption|eapply srel_le; [exact L24|exact G]|apply le_refl]|].
    intros w5 p4 p4' L5 E5. veq E5. apply sim_ret. reflexivity.
  Qed.
  Lemma sim_prule fuel w x y p : prel w x y -> sim Veq w (hp_rule write fuel x p) (hp_rule write fuel y p).
  Proof.
    intros R. destruct x as [x|], y as [y|]; cbn in R; try contradiction; cbn [hp_rule]; [|apply sim_panics].
    eapply sim_bind; [apply sim_get_rule; exact R|]. intros w1 c d L1 (A & B & C & D). eapply sim_bind; [apply sim_pvalue; exact A|].
    intros w2 p1 p1' L2 E2. veq E2. eapply sim_bind; [apply sim_get_rule; apply L2, L1, R|]. intros w3 c3 d3 L3 (A3 & B3 & C3 & D3). cbn zeta. rewrite C3.
    eapply sim_bind with (V := Veq).
    - destruct (h_cond c3) as [a|], (h_cond d3) as [b|]; cbn in B3; try contradiction; [apply sim_expr; exact B3|apply sim_ret; reflexivity].
    - intros w4 p2 p2' L4 E4. veq E4. apply sim_pvalue. eauto with conc.
  Qed.
  Lemma sim_prules fuel w s t : srel w s t -> forall k j p w', le w w' -> sim Veq w' (hp_rules write fuel s k j p) (hp_rules write fuel t k j p).
  Proof.
    intros R. induction k as [|k IH]; intros j p w0 L0; cbn [hp_rules]; [apply sim_ret; reflexivity|].
    eapply sim_bind; [apply sim_at; eauto with conc|]. intros w1 x y L1 Rx. destruct x as [| | | |x], y as [| | | |y]; cbn in Rx; try contradiction; try apply sim_panics.
    eapply sim_bind; [apply sim_prule; exact Rx|]. intros w2 p1 p2 L2 E. veq E. apply IH. exact (le_trans _ _ _ L0 (le_trans _ _ _ L1 L2)).
  Qed.
  Definition nodrel (w : world) (x y : pnode) : Prop :=
    match x, y with PFile (Some p), PFile (Some q) => fseen w p q | PFile None, PFile None => True | PWord a, PWord b => wrel w a b | _, _ => False end.
  Lemma sim_Fprint fuel w u x y : nodrel w x y -> sim Veq w (hp_Fprint write fuel u x) (hp_Fprint write fuel u y).
  Proof.
    intros R. unfold hp_Fprint. eapply sim_bind with (V := Veq); [|intros w' a b L E; veq E; apply sim_ret; reflexivity].
    destruct x as [[x|]|x], y as [[y|]|y]; cbn in R; try contradiction; cbn [hp_node]; [|apply sim_panics|].
    - eapply sim_bind; [apply sim_getf; exact R|]. intros w1 c d L1 (rules & rules0 & -> & -> & H).
      replace (sl_len rules0) with (sl_len rules) by (apply H). eapply sim_prules; [exact H|apply le_refl].
    - pose proof R as R'. destruct x, y; cbn in R; try contradiction; try (apply sim_pvalue; exact R'). apply sim_prule. exact R.
  Qed.
End PrintCode.
Lemma sim_Bytes fuel w x y : nodrel w x y -> sim Veq w (hp_Bytes fuel x) (hp_Bytes fuel y).
Proof.
  intros R. unfold hp_Bytes. eapply sim_bind; [apply sim_Fprint; exact R|]. intros w' [a e] b L E. veq E. destruct e; [apply sim_fails|apply sim_ret; reflexivity].
Qed.
Lemma sim_mwrap {A} w p (m n : M A) : sim Veq w m n -> sim Veq w (mwrap p m) (mwrap p n).
Proof.
  intros S. induction S as [w r s H|w x y f g Hs _ IH|w c d f g Hc _ IH|w x y c d f g Ho Hc _ IH|w x y f g Hs _ IH|w s t f g Hc _ IH|w x y s t f g Ho Hc _ IH]; cbn [mwrap];
    [apply sim_done|apply sim_load|apply sim_new|apply sim_store|apply sim_loadf|apply sim_newf|apply sim_storef]; auto.
  destruct r, s; cbn in H; try contradiction; subst; reflexivity || exact H.
Qed.
Lemma precheck_rel w c d : hsrel w c d -> hg_precheck c = hg_precheck d.
Proof.
  intros (A & B & C & D & E & G & H & J). unfold hg_precheck. rewrite A, C, H, J.
  assert (X : match h_op c with HOpcode o => match lookup_op operations o with Some s => Ok (o, s) | None => Err (not_supported (str "opcode " ++ o)) end | _ => Err (str "unexpanded opcode") end
            = match h_op d with HOpcode o => match lookup_op operations o with Some s => Ok (o, s) | None => Err (not_supported (str "opcode " ++ o)) end | _ => Err (str "unexpanded opcode") end).
  { destruct (h_op c), (h_op d); cbn in B; try contradiction; subst; reflexivity. }
  rewrite X. destruct (h_auxint c), (h_auxint d); cbn in D; try contradiction; [reflexivity|]. destruct (h_aux c), (h_aux d); cbn in E; try contradiction; reflexivity.
Qed.
Lemma sim_gargs w c e s t : (forall w' x y ty g, le w w' -> wrel w' x y -> sim Veq w' (e x ty g) (e y ty g)) -> srel w s t ->
  forall k j ps g w', le w w' -> sim Veq w' (hg_args c e s k j ps g) (hg_args c e t k j ps g).
Proof.
  intros He R. induction k as [|k IH]; intros j ps g w0 L0; cbn [hg_args]; [apply sim_ret; reflexivity|].
  eapply sim_bind; [apply sim_at; eauto with conc|]. intros w1 x y L1 Rx. destruct ps as [|ty ps]; [apply sim_panics|].
  pose proof (le_trans _ _ _ L0 L1) as L01. eapply sim_bind; [apply sim_mwrap, He; [exact L01|exact Rx]|].
  intros w2 r1 r2 L2 E. veq E. eapply sim_bind; [apply IH; exact (le_trans _ _ _ L01 L2)|]. intros w3 q1 q2 L3 E3. veq E3. apply sim_ret. reflexivity.
Qed.
Lemma sim_eval fuel : forall w x y t g, wrel w x y -> sim Veq w (hg_eval fuel x t g) (hg_eval fuel y t g).
Proof.
  induction fuel as [|fuel IH]; intros w x y t g R; cbn [hg_eval]; [apply sim_panics|].
  destruct x as [p|p|x| |p], y as [q|q|y| |q]; cbn in R; try contradiction; try apply sim_panics; try apply sim_fails; [|subst; apply sim_lift].
  destruct p as [p|], q as [q|]; cbn in R; try contradiction; [|apply sim_panics].
  eapply sim_bind; [apply sim_get_sexpr; exact R|]. intros w1 c d L1 Rc. rewrite (precheck_rel _ _ _ Rc). destruct Rc as (A & B & C & D & E & G & H & J).
  eapply sim_bind; [apply sim_lift|]. intros w2 co co' L2 E2. veq E2. eapply sim_bind; [apply sim_lift|]. intros w3 ps ps' L3 E3. veq E3.
  replace (sl_len (h_args d)) with (sl_len (h_args c)) by (apply G). destruct (negb _); [apply sim_fails|].
  eapply sim_bind; [eapply sim_gargs; [intros; apply IH; assumption|eapply srel_le; [exact (le_trans _ _ _ L2 L3)|exact G]|apply le_refl]|].
  intros w4 r1 r2 L4 E4. veq E4. eapply sim_bind; [apply sim_lift|]. intros w5 v1 v2 L5 E5. veq E5. apply sim_ret. reflexivity.
Qed.
Lemma sim_Generate fuel w p q : seen w p q -> sim Veq w (hg_Generate fuel (Some p)) (hg_Generate fuel (Some q)).
Proof.
  intros R. unfold hg_Generate, hg_generate. eapply sim_bind with (V := Veq); [|intros w' a b L E; veq E; apply sim_ret; reflexivity]. cbn zeta.
  eapply sim_bind; [apply sim_Bytes; exact R|]. intros w1 t1 t2 L1 E1. veq E1.
  eapply sim_bind; [apply sim_get_rule; apply L1, R|]. intros w2 c d L2 (A & B & C & D). eapply sim_bind; [apply sim_eval; exact A|]. intros w3 g1 g2 L3 E3. veq E3.
  eapply sim_bind; [apply sim_get_rule; apply L3, L2, L1, R|]. intros w4 c4 d4 L4 (A4 & B4 & C4 & D4). rewrite C4.
  destruct (h_cond c4), (h_cond d4); cbn in B4; try contradiction; [apply sim_fails|]. destruct (h_block d4); [|apply sim_fails].
  eapply sim_bind; [apply sim_eval; exact D4|]. intros w5 g3 g4 L5 E5. veq E5. apply sim_ret. reflexivity.
Qed.
