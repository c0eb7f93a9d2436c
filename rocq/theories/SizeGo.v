(** Printing a Go expression that was read from a text takes at most three times the
    length of that text. *)
From Verif Require Import Text GoAst GoExpr GoParser SpecPrint SpecSyntax GoNumber GoLex SynTrim GoExact SpecSize.
From Coq Require Import NArith Arith Lia.
Open Scope nat_scope.
Open Scope list_scope.
Open Scope res_scope.

(** How much of the source a token takes at least. *)
Definition token_size (t : gtoken) : nat :=
  match t with
  | TIdent x => len x
  | TLit _ v => len v
  | TOp o => len (tok_string o)
  | TLParen | TRParen | TComma | TDot | TEllipsis => 1
  | TSemi | TBad => 0
  end.
Fixpoint tokens_size (ts : list ptok) : nat :=
  match ts with [] => 0 | (t, _) :: ts' => token_size t + tokens_size ts' end.

Lemma operator_size s t k : lex_operator s = Some (t, k) -> token_size t <= k /\ k <= len s.
Proof.
  unfold lex_operator. destruct (find _ operators) as [[o t']|] eqn:F; [|discriminate].
  intros E. inversion E; subst t' k. clear E. pose proof (find_some _ _ F) as [Hin Hp]. cbn [fst] in Hp.
  apply has_prefix_iff in Hp. destruct Hp as [r ->]. split.
  - clear F r. unfold operators in Hin. cbn [In] in Hin.
    repeat (destruct Hin as [Hin|Hin]; [inversion Hin; subst; cbn; lia|]). contradiction.
  - rewrite app_length. assert (len (str o) = String.length o) as ->; [|lia].
    clear. induction o as [|c o IH]; [reflexivity|]. cbn. f_equal. exact IH.
Qed.

Lemma comment_size s : forall b h r, comment_end s b = Some (h, r) -> len r <= len s.
Proof.
  induction s as [|c s IH]; cbn [comment_end]; [discriminate|]. intros b h r.
  destruct s as [|d s']; [discriminate|]. destruct (ch c "*" && ch d "/")%bool.
  - intros E. inversion E; subst. cbn. lia.
  - intros E. apply IH in E. cbn in *. lia.
Qed.

Lemma filter_size {A} (p : A -> bool) l : List.length (filter p l) <= List.length l.
Proof. induction l as [|a l IH]; cbn; [lia|]. destruct (p a); cbn; lia. Qed.

Lemma lex_size n : forall semi pos s ts, lex n semi pos s = Ok ts -> tokens_size ts <= len s.
Proof.
  induction n as [|n IH]; intros semi pos s ts; [discriminate|]. cbn [lex].
  assert (EM : forall t b (k : nat) s' ts, (let* ts := lex n b (pos + N.of_nat k)%N s' in Ok ((t, pos) :: ts)) = Ok ts ->
    tokens_size ts <= token_size t + len s').
  { intros t b k s' ts' E. destruct (lex n b _ s') as [l| |] eqn:L; cbn in E; try discriminate.
    inversion E; subst. cbn. apply IH in L. lia. }
  assert (OP : forall s ts, match lex_operator s with
      | Some (t, k) => (let* ts := lex n (ends_statement t) (pos + N.of_nat k)%N (skipn k s) in Ok ((t, pos) :: ts))
      | None => Err (str "illegal character") end = Ok ts -> tokens_size ts <= len s).
  { intros s0 ts0. destruct (lex_operator s0) as [[t k]|] eqn:O; [|discriminate]. intros E. apply EM in E.
    apply operator_size in O. rewrite skipn_length in E. lia. }
  destruct s as [|c s']. { destruct semi; intros E; inversion E; subst; cbn; lia. }
  destruct (ch c nl).
  { destruct semi; intros E; [apply EM in E; cbn in *; lia|apply IH in E; cbn in *; lia]. }
  destruct (ch c sp || ch c tab || ch c cr)%bool. { intros E. apply IH in E. cbn. lia. }
  destruct (is_letter c).
  { destruct (span is_alnum (c :: s')) as [w r] eqn:S. apply span_eq in S. destruct S as [-> _]. rewrite app_length.
    destruct (is_keyword w); [|destruct (good_name w); [|discriminate]]; intros E; apply EM in E; cbn in *; lia. }
  destruct (is_digit c || _)%bool.
  { destruct (lex_number (c :: s')) as [[[k v] r]|] eqn:L; [|discriminate].
    apply number_shaped in L. destruct L as [-> _]. rewrite app_length. intros E. apply EM in E. cbn in *. lia. }
  destruct (ch c dquote).
  { destruct (quoted dquote false s') as [[a r]|] eqn:Q; [|discriminate]. apply quoted_eq in Q. destruct Q as [-> _].
    destruct (good_quoted _ _); [|discriminate]. intros E. apply EM in E. cbn [token_size List.length] in *. rewrite app_length. lia. }
  destruct (ch c "'").
  { destruct (quoted "'" false s') as [[a r]|] eqn:Q; [|discriminate]. apply quoted_eq in Q. destruct Q as [-> _].
    destruct (good_quoted _ _); [|discriminate]. intros E. apply EM in E. cbn [token_size List.length] in *. rewrite app_length. lia. }
  destruct (ch c "`").
  { destruct (quoted "`" true s') as [[a r]|] eqn:Q; [|discriminate]. apply quoted_eq in Q. destruct Q as [-> _].
    intros E. apply EM in E. cbn [token_size List.length] in *. pose proof (filter_size (fun x => negb (ch x cr)) a).
    rewrite app_length. lia. }
  destruct s' as [|d s'']; [apply OP|].
  destruct (ch c "/" && ch d "/")%bool.
  { destruct (span _ s'') as [a r] eqn:S. apply span_eq in S. destruct S as [-> _]. intros E. apply IH in E.
    cbn [List.length] in *. rewrite app_length. lia. }
  destruct (ch c "/" && ch d "*")%bool; [|apply OP].
  destruct (comment_end s'' false) as [[h r]|] eqn:C; [|discriminate]. apply comment_size in C.
  destruct (semi && h)%bool; intros E.
  - destruct (lex n false _ r) as [l| |] eqn:L; cbn in E; try discriminate. inversion E; subst. apply IH in L. cbn. lia.
  - apply IH in E. cbn. lia.
Qed.

Lemma scan_size s ts : scan s = Ok ts -> tokens_size ts <= len s.
Proof.
  unfold scan, scan_from. destruct (has_prefix bom s).
  - destruct (source_chars _ _); [|discriminate]. intros E. apply lex_size in E. rewrite skipn_length in E. lia.
  - destruct (source_chars _ _); [|discriminate]. apply lex_size.
Qed.

Lemma op_text_size o : 0 < tok_prec o -> len (op_text o) <= 3 * len (tok_string o).
Proof. destruct o; cbn; lia. Qed.

(** The parser: what it builds and what it leaves. *)
Notation sized e rest ts := (len (go_text e) + 3 * tokens_size rest <= 3 * tokens_size ts).
Notation args_text args := (sep_by (str ", ") (map go_text args)).

Lemma sep_size (t : text) l : len (sep_by (str ", ") (t :: l)) <= len t + 2 + len (sep_by (str ", ") l).
Proof. destruct l; cbn [sep_by]; rewrite ?app_length; cbn; lia. Qed.

Lemma parser_size n :
  (forall prec ts e rest, gp_binary n prec ts = Ok (e, rest) -> sized e rest ts) /\
  (forall prec x ts e rest, gp_binloop n prec x ts = Ok (e, rest) ->
     len (go_text e) + 3 * tokens_size rest <= len (go_text x) + 3 * tokens_size ts) /\
  (forall ts e rest, gp_unary n ts = Ok (e, rest) -> sized e rest ts) /\
  (forall x ts e rest, gp_primary n x ts = Ok (e, rest) ->
     len (go_text e) + 3 * tokens_size rest <= len (go_text x) + 3 * tokens_size ts) /\
  (forall ts args el q rest, gp_args n ts = Ok (args, el, q, rest) ->
     len (args_text args) + 2 + 3 * tokens_size rest <= 3 * tokens_size ts).
Proof.
  induction n as [|n (IB & IL & IU & IP & IA)]; [repeat split; discriminate|]. repeat split.
  - intros prec ts e rest. cbn [gp_binary]. destruct (gp_unary n ts) as [[x ts']| |] eqn:U; cbn [bind]; try discriminate.
    intros E. apply IU in U. apply IL in E. lia.
  - intros prec x ts e rest. cbn [gp_binloop].
    destruct ts as [|[t p] ts']; [intros E; inversion E; subst; lia|].
    destruct t as [| |o| | | | | | |]; try (intros E; inversion E; subst; lia).
    destruct ((0 <? tok_prec o) && (prec <=? tok_prec o))%bool eqn:B; [|intros E; inversion E; subst; lia].
    apply andb_prop in B. destruct B as [B _]. apply Nat.ltb_lt in B.
    destruct (gp_binary n _ ts') as [[y ts'']| |] eqn:U; cbn [bind]; try discriminate.
    intros E. apply IB in U. apply IL in E. cbn [go_text tokens_size token_size] in *. rewrite !app_length in E.
    pose proof (op_text_size o B). lia.
  - intros ts e rest. cbn [gp_unary].
    destruct ts as [|[t p] ts']; [discriminate|].
    destruct t as [x|k v|o| | | | | | |]; try discriminate.
    + intros E. apply IP in E. cbn [go_text tokens_size token_size] in *. lia.
    + intros E. apply IP in E. cbn [go_text tokens_size token_size] in *. lia.
    + destruct (unary_op o).
      * destruct (gp_unary n ts') as [[x ts'']| |] eqn:U; cbn [bind]; try discriminate. intros E. inversion E; subst.
        apply IU in U. cbn [go_text tokens_size token_size] in *. rewrite app_length. lia.
      * destruct o; try discriminate.
        destruct (gp_unary n ts') as [[x ts'']| |] eqn:U; cbn [bind]; try discriminate. intros E. inversion E; subst.
        apply IU in U. cbn [go_text tokens_size token_size tok_string] in *. rewrite app_length. cbn [List.length str] in *. cbn in *. lia.
    + destruct (gp_binary n 1 ts') as [[x ts'']| |] eqn:U; cbn [bind]; try discriminate.
      destruct ts'' as [|[[] q] ts3]; try discriminate. intros E. apply IB in U. apply IP in E.
      cbn [go_text tokens_size token_size] in *. rewrite !app_length in E. cbn [str List.length list_ascii_of_string] in E. cbn in *. lia.
  - intros x ts e rest. cbn [gp_primary].
    destruct ts as [|[t p] ts']; [intros E; inversion E; subst; lia|].
    destruct t; try (intros E; inversion E; subst; lia).
    + destruct (gp_args n ts') as [[[[args el] q] ts'']| |] eqn:U; cbn [bind]; try discriminate.
      intros E. apply IA in U. apply IP in E. cbn [go_text tokens_size token_size] in *. rewrite !app_length in E. cbn in *. lia.
    + destruct ts' as [|[t' p'] ts'']; [discriminate|]. destruct t'; try discriminate.
      intros E. apply IP in E. cbn [go_text tokens_size token_size] in *. rewrite !app_length in E. cbn in *. lia.
  - intros ts args el q rest. cbn [gp_args].
    assert (M : forall r, (let* at_ := gp_binary n 1 ts in
          let '(a, ts') := at_ in
          match ts' with
          | (TEllipsis, e) :: (TRParen, q) :: ts'' => Ok ([a], e, q, ts'')
          | (TEllipsis, e) :: (TComma, _) :: (TRParen, q) :: ts'' => Ok ([a], e, q, ts'')
          | (TComma, _) :: ts'' =>
              let* r := gp_args n ts'' in
              let '(args, el, q, ts3) := r in Ok (a :: args, el, q, ts3)
          | (TRParen, q) :: ts'' => Ok ([a], NoPos, q, ts'')
          | _ => syntax_error
          end) = Ok r -> r = (args, el, q, rest) -> len (args_text args) + 2 + 3 * tokens_size rest <= 3 * tokens_size ts).
    { intros r. destruct (gp_binary n 1 ts) as [[a ts']| |] eqn:U; cbn [bind]; try discriminate. apply IB in U.
      destruct ts' as [|[t p] ts']; [discriminate|].
      destruct t; try discriminate.
      - intros E X. subst. inversion E; subst. cbn [map sep_by tokens_size token_size] in *. lia.
      - destruct (gp_args n ts') as [[[[args' el'] q'] ts'']| |] eqn:V; cbn [bind]; try discriminate.
        intros E X. subst. inversion E; subst. apply IA in V. cbn [map tokens_size token_size] in *.
        pose proof (sep_size (go_text a) (map go_text args')). lia.
      - destruct ts' as [|[[] p'] ts']; try discriminate.
        + intros E X. subst. inversion E; subst. cbn [map sep_by tokens_size token_size] in *. lia.
        + destruct ts' as [|[[] p''] ts']; try discriminate.
          intros E X. subst. inversion E; subst. cbn [map sep_by tokens_size token_size] in *. lia. }
    destruct ts as [|[t p] ts']; [intros E; exact (M _ E eq_refl)|].
    destruct t; intros E; try exact (M _ E eq_refl). inversion E; subst. cbn. lia.
Qed.

Lemma ParseExpr_size s e : ParseExpr s = Ok e -> len (go_text e) <= 3 * len s.
Proof.
  unfold ParseExpr. destruct (scan s) as [ts| |] eqn:S; cbn [bind]; try discriminate. apply scan_size in S.
  destruct (gp_binary _ 1 ts) as [[x rest]| |] eqn:B; cbn [bind]; try discriminate.
  apply (proj1 (parser_size _)) in B. intros E.
  assert (x = e) as -> by (destruct rest as [|[[] ?] [|]]; try discriminate; congruence). lia.
Qed.

Lemma reads_size t e : reads ParseExpr t e -> len (go_text e) <= 3 * len t.
Proof. intros (raw & P & _ & ->). rewrite go_text_bare. apply ParseExpr_size. exact P. Qed.
