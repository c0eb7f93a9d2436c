(** The reference Go parser reads the tokens of an ordered tree as that tree. *)
From Verif Require Import Text GoAst GoParser SpecPrint SpecSyntax SpecGo GoFuel.
From Coq Require Import NArith Arith Bool Lia.

Fixpoint comma (l : list (list gtoken)) : list gtoken :=
  match l with
  | [] => []
  | [t] => t
  | t :: l' => t ++ TComma :: comma l'
  end.
Fixpoint toks (e : gexpr) : list gtoken :=
  match e with
  | GIdent _ x => [TIdent x]
  | GBasicLit _ k v => [TLit k v]
  | GParen _ x _ => TLParen :: toks x ++ [TRParen]
  | GUnary _ o x => TOp o :: toks x
  | GBinary x _ o y => toks x ++ TOp o :: toks y
  | GCall f _ args _ _ => toks f ++ TLParen :: comma (map toks args) ++ [TRParen]
  | GStar _ x => TOp MUL :: toks x
  | GSelector x _ sel => toks x ++ [TDot; TIdent sel]
  | GOther _ | GNil => []
  end.
Notation kinds := (map (@fst gtoken gopos)).

Lemma fold_and {A} (P : A -> Prop) l : fold_right (fun a Q => P a /\ Q) True l <-> Forall P l.
Proof. induction l; cbn; split; intros H; auto; [constructor; tauto|inversion H; tauto]. Qed.

Lemma prec_same o : precedence o = tok_prec o.
Proof. destruct o; reflexivity. Qed.

(** What may follow. *)
Definition nosuffix (ts : list ptok) : Prop := match ts with (TDot, _) :: _ | (TLParen, _) :: _ => False | _ => True end.
Definition follow (k : nat) (ts : list ptok) : Prop := match ts with (TOp o, _) :: _ => tok_prec o <= k | _ => True end.

Definition as_primary (e' : gexpr) ts := forall rest r, (exists m, gp_primary m e' rest = Ok r) -> exists n, gp_unary n (ts ++ rest) = Ok r.
Definition as_unary (e' : gexpr) ts := forall rest, nosuffix rest -> exists n, gp_unary n (ts ++ rest) = Ok (e', rest).
Definition as_binary (k : nat) (e' : gexpr) ts := forall rest, nosuffix rest -> follow k rest -> forall prec, 1 <= prec <= k ->
  forall r, (exists m, gp_binloop m prec e' rest = Ok r) -> exists n, gp_binary n prec (ts ++ rest) = Ok r.
Definition reading (e e' : gexpr) (ts : list ptok) : Prop :=
  bare e' = bare e /\ supported e' /\ (level e = 7 -> as_primary e' ts) /\ (6 <= level e -> as_unary e' ts) /\ as_binary (level e) e' ts.

Lemma primary_unary e' ts : as_primary e' ts -> as_unary e' ts.
Proof. intros A rest N. apply A. exists 1. cbn. destruct rest as [|[[] p] rest]; cbn in N; try contradiction; reflexivity. Qed.
Lemma unary_binary k e' ts : as_unary e' ts -> as_binary k e' ts.
Proof.
  intros A rest N F prec L r [m E]. destruct (A rest N) as [n H]. exists (S (Nat.max n m)). cbn [gp_binary]. rewrite (up_unary n _ _ _ H) by lia. cbn [bind].
  rewrite (up_binloop m _ _ _ _ _ E) by lia. reflexivity.
Qed.
Lemma stop_loop prec x rest : follow (prec - 1) rest -> 1 <= prec -> gp_binloop 1 prec x rest = Ok (x, rest).
Proof.
  intros F L. cbn. destruct rest as [|[[] p] rest]; try reflexivity. cbn in F. destruct (Nat.leb_spec prec (tok_prec o)); [lia|]. rewrite andb_false_r. reflexivity.
Qed.
(** An expression in parentheses, or an argument. *)
Lemma whole k e' ts rest : 1 <= k -> as_binary k e' ts -> (match rest with (TRParen, _) :: _ | (TComma, _) :: _ | (TSemi, _) :: _ | [] => True | _ => False end) ->
  exists n, gp_binary n 1 (ts ++ rest) = Ok (e', rest).
Proof.
  intros L A R. apply (A rest); [destruct rest as [|[[] q] rest]; cbn in *; auto; contradiction|destruct rest as [|[[] q] rest]; cbn in *; auto; contradiction|lia|].
  exists 1. apply stop_loop; [destruct rest as [|[[] q] rest]; cbn in *; auto; contradiction|lia].
Qed.
Lemma level_pos e : ordered e -> 1 <= level e.
Proof. destruct e; cbn; try lia. intros (I & _). exact I. Qed.

Lemma map_cons_inv {A B} (f : A -> B) l b m : map f l = b :: m -> exists a l', l = a :: l' /\ f a = b /\ map f l' = m.
Proof. destruct l as [|a l]; cbn; intros H; [discriminate|]. inversion H. eauto. Qed.
Lemma kinds_cons ts k m : kinds ts = k :: m -> exists p ts', ts = (k, p) :: ts' /\ kinds ts' = m.
Proof. intros H. apply map_cons_inv in H. destruct H as ([k' p] & l' & -> & E & M). cbn in E. subst. eauto. Qed.

Lemma args_reading args : Forall (fun e => ordered e /\ forall ts, kinds ts = toks e -> exists e', reading e e' ts) args ->
  forall ts, kinds ts = comma (map toks args) -> exists args', map bare args' = map bare args /\ Forall supported args' /\
    forall q rest, exists n, gp_args n (ts ++ (TRParen, q) :: rest) = Ok (args', NoPos, q, rest).
Proof.
  induction 1 as [|e args [O He] Ha IH]; intros ts K.
  - destruct ts; [|discriminate]. exists []. split; [reflexivity|]. split; [constructor|]. intros q rest. exists 1. reflexivity.
  - assert (First : forall t x n a, toks e <> [] -> kinds t = toks e -> gp_binary n 1 (t ++ x) = Ok a ->
      gp_args (S n) (t ++ x) = (let '(a, ts') := a in
          match ts' with
          | (TEllipsis, e) :: (TRParen, q) :: ts'' => Ok ([a], e, q, ts'')
          | (TEllipsis, e) :: (TComma, _) :: (TRParen, q) :: ts'' => Ok ([a], e, q, ts'')
          | (TComma, _) :: ts'' => bind (gp_args n ts'') (fun r => let '(args, el, q, ts3) := r in Ok (a :: args, el, q, ts3))
          | (TRParen, q) :: ts'' => Ok ([a], NoPos, q, ts'')
          | _ => syntax_error
          end)).
    { intros t x n a Ne Kt G. cbn [gp_args]. destruct (t ++ x) as [|[[] p] l] eqn:Et; try (rewrite G; reflexivity).
      exfalso. destruct n as [|n]; [discriminate|]. cbn [gp_binary] in G. destruct n as [|n]; discriminate. }
    assert (Ne : toks e <> []).
    { destruct e; cbn in *; try discriminate; try contradiction; intros X; apply app_eq_nil in X; destruct X as [_ X]; discriminate. }
    destruct args as [|e2 args].
    + cbn [map comma] in K. destruct (He ts K) as (e' & B & Su & _ & _ & Bi). exists [e']. split; [cbn; rewrite B; reflexivity|]. split; [repeat constructor; exact Su|].
      intros q rest. destruct (whole _ _ ts ((TRParen, q) :: rest) (level_pos e O) Bi I) as [n G]. exists (S n). rewrite (First _ _ _ _ Ne K G). reflexivity.
    + assert (K' : kinds ts = toks e ++ TComma :: comma (map toks (e2 :: args))) by exact K. clear K.
      apply map_eq_app in K'. destruct K' as (t1 & t2 & -> & K1 & K2). apply kinds_cons in K2. destruct K2 as (pc & t3 & -> & K3).
      destruct (He t1 K1) as (e' & B & Su & _ & _ & Bi). destruct (IH t3 K3) as (args' & Ba & Sa & G). exists (e' :: args'). split; [cbn [map] in *; congruence|]. split; [constructor; assumption|].
      intros q rest. rewrite <- app_assoc. cbn [app].
      destruct (whole _ _ t1 ((TComma, pc) :: t3 ++ (TRParen, q) :: rest) (level_pos e O) Bi I) as [n Gn]. destruct (G q rest) as [m Gm].
      exists (S (Nat.max n m)). apply (up_binary n (Nat.max n m)) in Gn; [|lia]. apply (up_args m (Nat.max n m)) in Gm; [|lia].
      rewrite (First _ _ _ _ Ne K1 Gn). rewrite Gm. reflexivity.
Qed.

Lemma level_top e : level e <= 7. Proof. destruct e; cbn; try lia. destruct op; cbn; lia. Qed.
Lemma prefix_unary o : prefix_op o -> unary_op o = true.
Proof. unfold prefix_op. cbn. intuition (subst; reflexivity). Qed.

Lemma tree_reading e : ordered e -> forall ts, kinds ts = toks e -> exists e', reading e e' ts.
Proof.
  induction e as [p x|p k v|l x r IHx|p o x IHx|x p o y IHx IHy|f l args el r IHf IHargs|p x IHx|x p s IHx|t|] using gexpr_ind'; intros O ts K; cbn [toks ordered] in *; try contradiction.
  - apply kinds_cons in K. destruct K as (q & ts' & -> & K). destruct ts'; [|discriminate]. exists (GIdent q x).
    assert (A : as_primary (GIdent q x) [(TIdent x, q)]) by (intros rest z [m E]; exists (S m); exact E).
    split; [reflexivity|]. split; [exact I|]. split; [auto|]. split; [intros _; apply primary_unary, A|apply unary_binary, primary_unary, A].
  - apply kinds_cons in K. destruct K as (q & ts' & -> & K). destruct ts'; [|discriminate]. exists (GBasicLit q k v).
    assert (A : as_primary (GBasicLit q k v) [(TLit k v, q)]) by (intros rest z [m E]; exists (S m); exact E).
    split; [reflexivity|]. split; [exact I|]. split; [auto|]. split; [intros _; apply primary_unary, A|apply unary_binary, primary_unary, A].
  - apply kinds_cons in K. destruct K as (q & ts' & -> & K). apply map_eq_app in K. destruct K as (t1 & t2 & -> & K1 & K2).
    apply kinds_cons in K2. destruct K2 as (q2 & t3 & -> & K2). destruct t3; [|discriminate].
    destruct (IHx O t1 K1) as (x' & B & Su & _ & _ & Bi). exists (GParen q x' q2).
    assert (A : as_primary (GParen q x' q2) ((TLParen, q) :: t1 ++ [(TRParen, q2)])).
    { intros rest z [m E]. destruct (whole _ _ t1 ((TRParen, q2) :: rest) (level_pos x O) Bi I) as [n G]. exists (S (Nat.max n m)). cbn [app gp_unary]. rewrite <- app_assoc. cbn [app].
      rewrite (up_binary n _ _ _ _ G) by lia. cbn [bind]. apply (up_primary m); [exact E|lia]. }
    split; [cbn; rewrite B; reflexivity|]. split; [exact Su|]. split; [auto|]. split; [intros _; apply primary_unary, A|apply unary_binary, primary_unary, A].
  - destruct O as (Po & L & O). apply kinds_cons in K. destruct K as (q & ts' & -> & K). destruct (IHx O ts' K) as (x' & B & Su & _ & U & _). specialize (U L). exists (GUnary q o x').
    assert (A : as_unary (GUnary q o x') ((TOp o, q) :: ts')).
    { intros rest N. destruct (U rest N) as [n G]. exists (S n). cbn [app gp_unary]. rewrite (prefix_unary o Po), G. reflexivity. }
    split; [cbn; rewrite B; reflexivity|]. split; [exact Su|]. split; [cbn; discriminate|]. split; [auto|apply unary_binary, A].
  - destruct O as (If & Lx & Ly & Ox & Oy). apply map_eq_app in K. destruct K as (t1 & t2 & -> & K1 & K2). apply kinds_cons in K2. destruct K2 as (q & t3 & -> & K3).
    destruct (IHx Ox t1 K1) as (x' & Bx & Sx & _ & _ & Cx). destruct (IHy Oy t3 K3) as (y' & By & Sy & _ & _ & Cy). exists (GBinary x' q o y').
    split; [cbn; rewrite Bx, By; reflexivity|]. split; [cbn; auto|]. split; [|split].
    + cbn [level]. destruct o; discriminate.
    + cbn [level]. destruct o; cbn; lia.
    + intros rest N F prec Lp r [m E]. unfold infix in If. cbn [level] in *. rewrite !prec_same in *. rewrite <- app_assoc. cbn [app]. apply Cx; [exact I|cbn; lia|lia|].
      assert (Gy : exists n, gp_binary n (S (tok_prec o)) (t3 ++ rest) = Ok (y', rest)).
      { apply Cy; [exact N| |lia|exists 1; apply stop_loop; [|lia]]; destruct rest as [|[[] ?] ?]; cbn in *; auto; lia. }
      destruct Gy as [n G]. exists (S (Nat.max n m)). cbn [gp_binloop]. rewrite (proj2 (Nat.ltb_lt _ _)), (proj2 (Nat.leb_le _ _)) by lia. cbn [andb].
      rewrite (up_binary n _ _ _ _ G) by lia. cbn [bind]. apply (up_binloop m); [exact E|lia].
  - destruct O as (Lf & Of & Oa). apply map_eq_app in K. destruct K as (t1 & t2 & -> & K1 & K2). apply kinds_cons in K2. destruct K2 as (q & t3 & -> & K3).
    apply map_eq_app in K3. destruct K3 as (t4 & t5 & -> & K4 & K5). apply kinds_cons in K5. destruct K5 as (q2 & t6 & -> & K6). destruct t6; [|discriminate].
    destruct (IHf Of t1 K1) as (f' & Bf & Sf & Pf & _). specialize (Pf Lf).
    assert (Ha : Forall (fun e => ordered e /\ forall ts, kinds ts = toks e -> exists e', reading e e' ts) args).
    { rewrite fold_and in Oa. rewrite Forall_forall in *. intros e I. split; [apply Oa; exact I|]. apply IHargs; [exact I|]. apply Oa. exact I. }
    destruct (args_reading args Ha t4 K4) as (args' & Ba & Sa & G). exists (GCall f' q args' NoPos q2).
    assert (A : as_primary (GCall f' q args' NoPos q2) (t1 ++ (TLParen, q) :: t4 ++ [(TRParen, q2)])).
    { intros rest z [m E]. rewrite <- app_assoc. cbn [app]. apply Pf. rewrite <- app_assoc. cbn [app]. destruct (G q2 rest) as [n Gn]. exists (S (Nat.max n m)).
      cbn [gp_primary]. rewrite (up_args n _ _ _ Gn) by lia. cbn [bind]. apply (up_primary m); [exact E|lia]. }
    split; [cbn; rewrite Bf, Ba; reflexivity|]. split; [cbn; split; [exact Sf|apply fold_and; exact Sa]|]. split; [auto|]. split; [intros _; apply primary_unary, A|apply unary_binary, primary_unary, A].
  - destruct O as (L & O). apply kinds_cons in K. destruct K as (q & ts' & -> & K). destruct (IHx O ts' K) as (x' & B & Su & _ & U & _). specialize (U L). exists (GStar q x').
    assert (A : as_unary (GStar q x') ((TOp MUL, q) :: ts')).
    { intros rest N. destruct (U rest N) as [n G]. exists (S n). cbn [app gp_unary unary_op]. rewrite G. reflexivity. }
    split; [cbn; rewrite B; reflexivity|]. split; [exact Su|]. split; [cbn; discriminate|]. split; [auto|apply unary_binary, A].
  - destruct O as (L & Ns & O). apply map_eq_app in K. destruct K as (t1 & t2 & -> & K1 & K2). apply kinds_cons in K2. destruct K2 as (q & t3 & -> & K3).
    apply kinds_cons in K3. destruct K3 as (q2 & t4 & -> & K4). destruct t4; [|discriminate].
    destruct (IHx O t1 K1) as (x' & B & Su & Pf & _). specialize (Pf L). exists (GSelector x' q2 s).
    assert (A : as_primary (GSelector x' q2 s) (t1 ++ [(TDot, q); (TIdent s, q2)])).
    { intros rest z [m E]. rewrite <- app_assoc. cbn [app]. apply Pf. exists (S m). exact E. }
    split; [cbn; rewrite B; reflexivity|]. split; [exact Su|]. split; [auto|]. split; [intros _; apply primary_unary, A|apply unary_binary, primary_unary, A].
Qed.

(** The whole text. *)
Lemma tokens_read s e ts p : ordered e -> scan s = Ok (ts ++ [(TSemi, p)]) -> kinds ts = toks e -> reads ParseExpr s (bare e).
Proof.
  intros O Sc K. destruct (tree_reading e O ts K) as (e' & B & Su & _ & _ & Bi).
  destruct (whole _ _ ts [(TSemi, p)] (level_pos e O) Bi I) as [n G]. exists e'. split; [|auto]. unfold ParseExpr. rewrite Sc. cbn [bind].
  apply parse_fuel in G. change (list ptok) with (list (gtoken * gopos)) in *. unfold ptok in *. rewrite G. reflexivity.
Qed.
