(** C71: a printed file has one line per rule.  Vocabulary: SpecLines.v. *)
From Verif Require Import Text GoAst Ast Utf8 GoExpr Parse Printer GoParser SpecPrint SpecUtf8 SpecSyntax SpecTrees SpecGo SpecBack SpecLines PrintFacts SynShape CmdParse GoOrdered GoBack GoExact GoReturns SynTrim SynFile LineFacts.
From Coq Require Import NArith Arith Bool Lia.
Open Scope nat_scope.
Open Scope list_scope.

Lemma parsed_ordered fn data f : Parse ParseExpr fn data = Ok f -> Forall (fun r => lex_rule r /\ Forall ordered (rule_exprs r)) (f_rules f).
Proof.
  intros H. apply parse_shape in H. eapply Forall_impl; [|exact H]. cbn. intros r [L O]. split; [exact L|]. eapply Forall_impl; [|exact O]. cbn.
  intros e (t & _ & [R|(u & _ & R)]); exact (reads_ordered _ _ R).
Qed.
(** The line breaks of the printed file are one at the end of each rule, and those that
    are in its types, its block and its literals. *)
Theorem C71_line_breaks :
  forall fn data f t, Parse ParseExpr fn data = Ok f -> Bytes (NFile f) = Ok t ->
    breaks t = List.length (f_rules f) + sum (map (fun r => sum (map breaks (free_parts r))) (f_rules f)).
Proof.
  intros fn data f t P B. apply parsed_ordered in P. rewrite Bytes_eq in B. destruct (node_bad (NFile f)); inversion B; subst. destruct f as [rs]. cbn [node_text f_rules] in *.
  apply file_breaks; (eapply Forall_impl; [|exact P]); cbn; tauto.
Qed.
Print Assumptions C71_line_breaks.
(** So without such parts line n of the file is rule n as it is printed by itself. *)
Theorem C71_one_line_each :
  forall fn data f t, Parse ParseExpr fn data = Ok f -> Bytes (NFile f) = Ok t ->
    (forall r x, In r (f_rules f) -> In x (free_parts r) -> ~ In nl x) ->
    exists lines, t = List.concat (map (fun l => l ++ [nl]) lines) /\ Forall (fun l => ~ In nl l) lines /\
      map (fun r => Bytes (NRule r)) (f_rules f) = map Ok lines.
Proof.
  intros fn data f t P B N. exists (map rule_text (f_rules f)). apply parsed_ordered in P. rewrite Bytes_eq in B. destruct (node_bad (NFile f)) as [|b bs] eqn:Nb; [|inversion B]. inversion B; subst. split; [|split].
  - cbn [node_text]. unfold file_text. rewrite map_map. reflexivity.
  - rewrite Forall_map. rewrite Forall_forall in *. intros r I. destruct (P r I) as [L O]. apply breaks_none. rewrite rule_breaks by assumption. apply sum_zero. rewrite Forall_map, Forall_forall. intros x Ix. apply breaks_none. exact (N r x I Ix).
  - rewrite map_map. apply map_ext_in. intros r I. rewrite Bytes_eq. cbn [node_bad node_text] in *.
    assert (Z : rule_bad r = []).
    { destruct (rule_bad r) as [|z zs] eqn:E; [reflexivity|]. assert (J : In z (flat_map rule_bad (f_rules f))) by (apply in_flat_map; exists r; split; [exact I|rewrite E; left; reflexivity]). rewrite Nb in J. destruct J. }
    rewrite Z. reflexivity.
Qed.
Print Assumptions C71_one_line_each.
(** The literals of a condition never have line breaks. *)
Theorem C71_conditions :
  forall fn data f r e v, Parse ParseExpr fn data = Ok f -> In r (f_rules f) -> r_cond r = Some e -> In v (literals e) -> ~ In nl v.
Proof.
  intros fn data f r e v P I C Iv. apply parse_source in P. destruct P as [_ S]. induction S as [|w t w' rest r' rs W W' R S IH]; [destruct I|]. destruct I as [->|I]; [|auto].
  destruct R as [m vm ct c w1 w2 bt b w3 res vr _ Cf _ _ _ _ _ _]. cbn [r_cond] in C. subst c. inversion Cf as [|? ? c' ? ? ? ? ? ? ? ? ? ? R]; subst. apply reads_cond_iff in R.
  apply (reads_lacks nl) in R; [|apply trimmed_lacks, newlines_none]. rewrite Forall_forall in R. auto.
Qed.
Print Assumptions C71_conditions.

(** Three rules; the last two have line breaks in a type, a block and a raw string. *)
Definition ex_lines : text := str "(Add x" ++ [nl] ++ str "  y) && c > `a" ++ [nl] ++ str "b` => (Add y x)" ++ [nl] ++ str "(B <a" ++ [nl] ++ str "b> x) => x" ++ [nl] ++ str "(C {f(`" ++ [nl; nl] ++ str "`)} x) => @a" ++ [nl] ++ str "b x".
Example C71_example : exists f t, Parse ParseExpr (str "x.rules") ex_lines = Ok f /\ Bytes (NFile f) = Ok t /\ breaks t = 3 + (0 + (1 + (3 + 0))) /\
  t = str "(Add x y) && c > `a b` => (Add y x)" ++ [nl] ++ str "(B <a" ++ [nl] ++ str "b> x) => x" ++ [nl] ++ str "(C {f(`" ++ [nl; nl] ++ str "`)} x) => @a" ++ [nl] ++ str "b x" ++ [nl].
Proof. eexists _, _. split; [vm_compute; reflexivity|]. split; [vm_compute; reflexivity|]. split; vm_compute; reflexivity. Qed.
