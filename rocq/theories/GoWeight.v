(** How many characters other than white space the tokens of a text take: those of
    comments are missing. *)
From Verif Require Import Text GoAst GoParser GoNumber GoLex GoTree SynTrim.
From Coq Require Import NArith Arith Bool Lia.
Open Scope nat_scope.
Open Scope list_scope.
Open Scope res_scope.

Definition dark_char (c : ascii) : bool := negb (ch c nl || ch c sp || ch c tab || ch c cr).
Definition dark (s : text) : nat := List.length (filter dark_char s).
Lemma dark_app a b : dark (a ++ b) = dark a + dark b.
Proof. unfold dark. rewrite filter_app, app_length. reflexivity. Qed.
Lemma dark_cons c s : dark (c :: s) = dark [c] + dark s.
Proof. apply (dark_app [c]). Qed.
Lemma dark_cr a : dark (filter (fun x => negb (ch x cr)) a) = dark a.
Proof.
  induction a as [|c a IH]; [reflexivity|]. cbn [filter]. rewrite (dark_cons c a). destruct (ch c cr) eqn:E; cbn [negb].
  - apply ch_eq in E. subst. exact IH.
  - rewrite dark_cons, IH. reflexivity.
Qed.

Definition weight (t : gtoken) : nat :=
  match t with
  | TIdent x => dark x
  | TLit _ v => dark v
  | TOp o => dark (tok_string o)
  | TLParen | TRParen | TComma | TDot => 1
  | TEllipsis => 3
  | TSemi | TBad => 0
  end.
Definition weights (ts : list gtoken) : nat := list_sum (map weight ts).
Lemma weights_cons t ts : weights (t :: ts) = weight t + weights ts. Proof. reflexivity. Qed.
Lemma weights_app a b : weights (a ++ b) = weights a + weights b.
Proof. unfold weights. rewrite map_app. apply list_sum_app. Qed.

Lemma operator_weight s t k : lex_operator s = Some (t, k) -> exists o r, s = o ++ r /\ List.length o = k /\ weight t <= dark o.
Proof.
  unfold lex_operator. destruct (find _ operators) as [[o t']|] eqn:F; [|discriminate].
  intros E. inversion E; subst t' k. clear E. pose proof (find_some _ _ F) as [Hin Hp]. cbn [fst] in Hp.
  apply has_prefix_iff in Hp. destruct Hp as [r ->]. exists (str o), r. split; [reflexivity|]. clear F r. unfold operators in Hin. cbn [In] in Hin.
  repeat (destruct Hin as [Hin|Hin]; [inversion Hin; subst; split; [reflexivity|vm_compute; lia]|]). contradiction.
Qed.
Lemma comment_weight s : forall b h r, comment_end s b = Some (h, r) -> dark r <= dark s.
Proof.
  induction s as [|c s IH]; cbn [comment_end]; [discriminate|]. intros b h r.
  destruct s as [|d s']; [discriminate|]. destruct (ch c "*" && ch d "/").
  - intros E. inversion E; subst. rewrite (dark_cons c), (dark_cons d). lia.
  - intros E. apply IH in E. rewrite (dark_cons c). lia.
Qed.

Lemma lex_weight n : forall semi pos s ts, lex n semi pos s = Ok ts -> weights (kinds ts) <= dark s.
Proof.
  induction n as [|n IH]; intros semi pos s ts; [discriminate|]. cbn [lex].
  assert (EM : forall t b (k : nat) s' ts, (let* ts := lex n b (pos + N.of_nat k)%N s' in Ok ((t, pos) :: ts)) = Ok ts ->
    weights (kinds ts) <= weight t + dark s').
  { intros t b k s' ts' E. destruct (lex n b _ s') as [l| |] eqn:L; cbn in E; try discriminate.
    inversion E; subst. cbn [map fst]. rewrite weights_cons. apply IH in L. lia. }
  assert (OP : forall s ts, match lex_operator s with
      | Some (t, k) => (let* ts := lex n (ends_statement t) (pos + N.of_nat k)%N (skipn k s) in Ok ((t, pos) :: ts))
      | None => Err (str "illegal character") end = Ok ts -> weights (kinds ts) <= dark s).
  { intros s0 ts0. destruct (lex_operator s0) as [[t k]|] eqn:O; [|discriminate]. intros E. apply EM in E.
    apply operator_weight in O. destruct O as (o & r & -> & <- & W). rewrite skipn_app, skipn_all, Nat.sub_diag in E. cbn [skipn app] in E. rewrite dark_app. lia. }
  destruct s as [|c s']. { destruct semi; intros E; inversion E; subst; cbn; lia. }
  destruct (ch c nl).
  { rewrite dark_cons. destruct semi; intros E; [apply EM in E; cbn [weight] in *; lia|apply IH in E; lia]. }
  destruct (ch c sp || ch c tab || ch c cr). { intros E. apply IH in E. rewrite dark_cons. lia. }
  destruct (is_letter c).
  { destruct (span is_alnum (c :: s')) as [w r] eqn:S. apply span_eq in S. destruct S as [-> _]. rewrite dark_app.
    destruct (is_keyword w); [|destruct (good_name w); [|discriminate]]; intros E; apply EM in E; cbn [weight] in *; lia. }
  destruct (is_digit c || _).
  { destruct (lex_number (c :: s')) as [[[k v] r]|] eqn:L; [|discriminate].
    apply number_shaped in L. destruct L as [-> _]. rewrite dark_app. intros E. apply EM in E. cbn [weight] in *. lia. }
  destruct (ch c dquote).
  { destruct (quoted dquote false s') as [[a r]|] eqn:Q; [|discriminate]. apply quoted_eq in Q. destruct Q as [-> _].
    destruct (good_quoted _ _); [|discriminate]. intros E. apply EM in E. cbn [weight] in *. rewrite (dark_cons c a) in E. rewrite dark_cons, dark_app. lia. }
  destruct (ch c "'").
  { destruct (quoted "'" false s') as [[a r]|] eqn:Q; [|discriminate]. apply quoted_eq in Q. destruct Q as [-> _].
    destruct (good_quoted _ _); [|discriminate]. intros E. apply EM in E. cbn [weight] in *. rewrite (dark_cons c a) in E. rewrite dark_cons, dark_app. lia. }
  destruct (ch c "`").
  { destruct (quoted "`" true s') as [[a r]|] eqn:Q; [|discriminate]. apply quoted_eq in Q. destruct Q as [-> _].
    intros E. apply EM in E. cbn [weight] in *. rewrite dark_cons, dark_cr in E. rewrite dark_cons, dark_app. lia. }
  destruct s' as [|d s'']; [apply OP|].
  destruct (ch c "/" && ch d "/").
  { destruct (span _ s'') as [a r] eqn:S. apply span_eq in S. destruct S as [-> _]. intros E. apply IH in E.
    rewrite (dark_cons c), (dark_cons d), dark_app. lia. }
  destruct (ch c "/" && ch d "*"); [|apply OP].
  destruct (comment_end s'' false) as [[h r]|] eqn:C; [|discriminate]. apply comment_weight in C. rewrite (dark_cons c), (dark_cons d).
  destruct (semi && h); intros E.
  - destruct (lex n false _ r) as [l| |] eqn:L; cbn in E; try discriminate. inversion E; subst. apply IH in L. cbn [map fst]. rewrite weights_cons. cbn [weight]. lia.
  - apply IH in E. lia.
Qed.
