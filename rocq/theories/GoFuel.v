(** The reference Go parser: fuel. *)
From Verif Require Import Text GoAst GoParser.
From Coq Require Import NArith Arith Bool Lia.

(** With more fuel an answer stays. *)
Definition done {A} (x : res A) : Prop := match x with Panic _ => False | _ => True end.
Definition stable {A} (f : nat -> res A) (n : nat) : Prop := done (f n) -> forall m, n <= m -> f m = f n.
Lemma bind_stable {A B} (x x' : res A) (k k' : A -> res B) :
  (done x -> x' = x) -> (forall a, done (k a) -> k' a = k a) -> done (bind x k) -> bind x' k' = bind x k.
Proof. intros H K D. destruct x as [a|e|m]; cbn in *; [rewrite (H I)|rewrite (H I)|contradiction]; cbn; auto. Qed.

Lemma fuel_more n :
  (forall prec ts, stable (fun n => gp_binary n prec ts) n) /\ (forall prec x ts, stable (fun n => gp_binloop n prec x ts) n) /\
  (forall ts, stable (fun n => gp_unary n ts) n) /\ (forall x ts, stable (fun n => gp_primary n x ts) n) /\ (forall ts, stable (fun n => gp_args n ts) n).
Proof.
  induction n as [|n (Hb & Hl & Hu & Hp & Ha)]; [repeat split; intros; intros H; destruct H|].
  assert (Ub : forall m prec ts, n <= m -> done (gp_binary n prec ts) -> gp_binary m prec ts = gp_binary n prec ts) by (intros; apply Hb; assumption).
  assert (Ul : forall m prec x ts, n <= m -> done (gp_binloop n prec x ts) -> gp_binloop m prec x ts = gp_binloop n prec x ts) by (intros; apply Hl; assumption).
  assert (Uu : forall m ts, n <= m -> done (gp_unary n ts) -> gp_unary m ts = gp_unary n ts) by (intros; apply Hu; assumption).
  assert (Up : forall m x ts, n <= m -> done (gp_primary n x ts) -> gp_primary m x ts = gp_primary n x ts) by (intros; apply Hp; assumption).
  assert (Ua : forall m ts, n <= m -> done (gp_args n ts) -> gp_args m ts = gp_args n ts) by (intros; apply Ha; assumption).
  clear Hb Hl Hu Hp Ha.
  split; [|split; [|split; [|split]]]; unfold stable; intros; destruct m as [|m]; try lia; assert (L : n <= m) by lia.
  - cbn [gp_binary] in *. apply bind_stable; auto. intros [x t] D. apply Ul; assumption.
  - cbn [gp_binloop] in *. destruct ts as [|[[] p] ts]; auto. destruct ((0 <? tok_prec o) && (prec <=? tok_prec o)); auto.
    apply bind_stable; auto. intros [y t] D. apply Ul; assumption.
  - cbn [gp_unary] in *. destruct ts as [|[[] p] ts]; auto.
    + destruct (unary_op o); [apply bind_stable; auto|]. destruct o; auto. apply bind_stable; auto.
    + apply bind_stable; auto. intros [y t] D. destruct t as [|[[] q] t]; auto.
  - cbn [gp_primary] in *. destruct ts as [|[[] p] ts]; auto.
    + apply bind_stable; auto. intros [[[ar el] q] t] D. auto.
    + destruct ts as [|[[] q] ts]; auto.
  - cbn [gp_args] in *. destruct ts as [|[t p] ts]; [|destruct t; auto];
      (apply bind_stable; auto; intros [y t'] D; destruct t' as [|[[] q] t']; auto; apply bind_stable; auto).
Qed.

(** Tokens are consumed, and the fuel of ParseExpr suffices. *)
Definition fine {A} (x : res A) (P : A -> Prop) : Prop := match x with Ok a => P a | Err _ => True | Panic _ => False end.
Lemma fine_bind {A B} (x : res A) (k : A -> res B) P Q : fine x P -> (forall a, P a -> fine (k a) Q) -> fine (bind x k) Q.
Proof. destruct x; cbn; auto. Qed.
Lemma fine_weak {A} (x : res A) (P Q : A -> Prop) : fine x P -> (forall a, P a -> Q a) -> fine x Q.
Proof. destruct x; cbn; auto. Qed.
Notation len := List.length.
Definition shorter {A} (k : nat) (r : A * list ptok) : Prop := len (snd r) < k.
Definition nolonger {A} (k : nat) (r : A * list ptok) : Prop := len (snd r) <= k.

Lemma fuel_enough n :
  (forall prec ts, 4 * len ts + 3 <= n -> fine (gp_binary n prec ts) (shorter (len ts))) /\
  (forall prec x ts, 4 * len ts + 1 <= n -> fine (gp_binloop n prec x ts) (nolonger (len ts))) /\
  (forall ts, 4 * len ts + 2 <= n -> fine (gp_unary n ts) (shorter (len ts))) /\
  (forall x ts, 4 * len ts + 1 <= n -> fine (gp_primary n x ts) (nolonger (len ts))) /\
  (forall ts, 4 * len ts + 4 <= n -> fine (gp_args n ts) (shorter (len ts))).
Proof.
  unfold shorter, nolonger.
  induction n as [|n (Hb & Hl & Hu & Hp & Ha)]; [repeat split; intros; lia|].
  repeat split; intros.
  - cbn [gp_binary]. eapply fine_bind; [apply Hu; lia|]. intros [x t] L. cbn [snd] in L. eapply fine_weak; [apply Hl; lia|]. intros [y u] L'. cbn [snd] in *. lia.
  - cbn [gp_binloop]. destruct ts as [|[[] p] ts]; try (cbn; lia). destruct ((0 <? tok_prec o) && (prec <=? tok_prec o)); [|cbn; lia]. cbn [len] in *.
    eapply fine_bind; [apply Hb; lia|]. intros [x1 t] L. cbn [snd] in L. eapply fine_weak; [apply Hl; lia|]. intros [y u] L'. cbn [snd] in *. lia.
  - cbn [gp_unary]. destruct ts as [|[[] p] ts]; try exact I; cbn [len] in *.
    + eapply fine_weak; [apply Hp; lia|]. intros [y u] L'. cbn [snd] in *. lia.
    + eapply fine_weak; [apply Hp; lia|]. intros [y u] L'. cbn [snd] in *. lia.
    + destruct (unary_op o).
      * eapply fine_bind; [apply Hu; lia|]. intros [x t] L. cbn [fine snd] in *. lia.
      * destruct o; try exact I. eapply fine_bind; [apply Hu; lia|]. intros [x t] L. cbn [fine snd] in *. lia.
    + eapply fine_bind; [apply Hb; lia|]. intros [x t] L. cbn [snd] in L. destruct t as [|[[] q] t]; try exact I. cbn [len] in *.
      eapply fine_weak; [apply Hp; lia|]. intros [y u] L'. cbn [snd] in *. lia.
  - cbn [gp_primary]. destruct ts as [|[[] p] ts]; try (cbn; lia); cbn [len] in *.
    + eapply fine_bind; [apply Ha; lia|]. intros [[[ar el] q] t] L. cbn [snd] in L. eapply fine_weak; [apply Hp; lia|]. intros [y u] L'. cbn [snd] in *. lia.
    + destruct ts as [|[[] q] ts]; try exact I. cbn [len] in *. eapply fine_weak; [apply Hp; lia|]. intros [y u] L'. cbn [snd] in *. lia.
  - assert (G : fine (bind (gp_binary n 1 ts) (fun at_ => let '(a, ts') := at_ in
          match ts' with
          | (TEllipsis, e) :: (TRParen, q) :: ts'' => Ok ([a], e, q, ts'')
          | (TEllipsis, e) :: (TComma, _) :: (TRParen, q) :: ts'' => Ok ([a], e, q, ts'')
          | (TComma, _) :: ts'' => bind (gp_args n ts'') (fun r => let '(args, el, q, ts3) := r in Ok (a :: args, el, q, ts3))
          | (TRParen, q) :: ts'' => Ok ([a], NoPos, q, ts'')
          | _ => syntax_error
          end)) (fun r => len (snd r) < len ts)).
    { eapply fine_bind; [apply Hb; lia|]. intros [a t] L. cbn [snd] in L. destruct t as [|[[] q] t]; try exact I; cbn [len] in *.
      - cbn [fine snd]. lia.
      - eapply fine_bind; [apply Ha; lia|]. intros [[[ar el] q'] t'] L'. cbn [fine snd] in *. lia.
      - destruct t as [|[[] q1] t]; try exact I; cbn [len] in *; [cbn [fine snd]; lia|]. destruct t as [|[[] q2] t]; try exact I; cbn [len] in *. cbn [fine snd]. lia. }
    cbn [gp_args]. destruct ts as [|[[] p] ts]; try exact G. cbn [fine snd len]. lia.
Qed.

(** Whatever fuel finds the answer, ParseExpr finds it. *)
Lemma fuel_two n m prec ts : done (gp_binary n prec ts) -> done (gp_binary m prec ts) -> gp_binary n prec ts = gp_binary m prec ts.
Proof.
  intros D D'. destruct (Nat.le_ge_cases n m) as [L|L]; [symmetry; exact (proj1 (fuel_more n) _ _ D _ L)|exact (proj1 (fuel_more m) _ _ D' _ L)].
Qed.
Lemma parse_fuel n ts r : gp_binary n 1 ts = Ok r -> gp_binary (4 * len ts + 4) 1 ts = Ok r.
Proof.
  intros H. pose proof (proj1 (fuel_enough (4 * len ts + 4)) 1 ts ltac:(lia)) as F. rewrite <- H. apply fuel_two; [|rewrite H; exact I].
  destruct (gp_binary (4 * len ts + 4) 1 ts); cbn in *; auto.
Qed.

(** Raising the fuel. *)
Lemma up_binary n m prec ts r : gp_binary n prec ts = Ok r -> n <= m -> gp_binary m prec ts = Ok r.
Proof. intros H L. rewrite <- H. apply (proj1 (fuel_more n)); [|exact L]. cbn. rewrite H. exact I. Qed.
Lemma up_binloop n m prec x ts r : gp_binloop n prec x ts = Ok r -> n <= m -> gp_binloop m prec x ts = Ok r.
Proof. intros H L. rewrite <- H. apply (proj1 (proj2 (fuel_more n))); [|exact L]. cbn. rewrite H. exact I. Qed.
Lemma up_unary n m ts r : gp_unary n ts = Ok r -> n <= m -> gp_unary m ts = Ok r.
Proof. intros H L. rewrite <- H. apply (proj1 (proj2 (proj2 (fuel_more n)))); [|exact L]. cbn. rewrite H. exact I. Qed.
Lemma up_primary n m x ts r : gp_primary n x ts = Ok r -> n <= m -> gp_primary m x ts = Ok r.
Proof. intros H L. rewrite <- H. apply (proj1 (proj2 (proj2 (proj2 (fuel_more n))))); [|exact L]. cbn. rewrite H. exact I. Qed.
Lemma up_args n m ts r : gp_args n ts = Ok r -> n <= m -> gp_args m ts = Ok r.
Proof. intros H L. rewrite <- H. apply (proj2 (proj2 (proj2 (proj2 (fuel_more n))))); [|exact L]. cbn. rewrite H. exact I. Qed.
