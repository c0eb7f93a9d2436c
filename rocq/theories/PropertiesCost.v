(** C52: how much work parsing is, and the limit on it.
    Model: Count.v (the counter), Peg.v, Grammar.v. *)
From Verif Require Import Text GoAst Ast Utf8 GoExpr Peg Grammar Parse GoParser Count PegPoints PegSem PegTerm ParseFacts PegCost CostGrammar.
From Coq Require Import NArith Arith Bool Lia.
Open Scope N_scope.

Lemma the_grammar_closed n b : the_grammar n = Some b -> closed the_grammar b = true.
Proof.
  unfold the_grammar. destruct (find _ grammar_rules) as [[m e]|] eqn:F; [|discriminate]. cbn. intros E. inversion E; subst b.
  apply find_some in F. destruct F as [I _]. unfold grammar_rules in I. cbn [In] in I. repeat (destruct I as [I|I]; [inversion I; subst; vm_compute; reflexivity|]). contradiction.
Qed.
(** Actions that do nothing. *)
Definition idle (a : action) (t : text) (en : env) : ares := AOk VNil.
Lemma file_cost data : exists o c m, CST g_File (Rc (read None (init_state data))) o c m /\ c <= 1000 * ((len data + 1) * (len data + 1)).
Proof.
  assert (T : parse_expr idle the_grammar (parse_bound data) (str "File") g_File [] (read None (init_state data)) <> OutOfFuel).
  { apply (enough idle the_grammar data grammar_lits cons_tab cons_ok 64 h_tab ParseFacts.h_ok ltac:(lia)).
    - vm_compute. reflexivity.
    - vm_compute. reflexivity.
    - apply init_inv.
    - pose proof (start_left data) as SL. unfold start in SL. rewrite SL. assert (H : (height cons_tab h_tab g_File <= 64)%nat) by (apply Nat.leb_le; vm_compute; reflexivity). unfold parse_bound. lia. }
  pose proof (proj1 (engine_cost idle the_grammar data grammar_lits the_grammar_closed (parse_bound data)) (str "File") g_File [] (read None (init_state data)) ltac:(vm_compute; reflexivity) ltac:(vm_compute; reflexivity) (init_inv data)) as C.
  destruct (parse_expr idle the_grammar _ _ _ _ _) as [|msg rl s1|v ok en s1]; [congruence|..]; cbn [costs] in C.
  - destruct C as (a & t & en & m & E). discriminate.
  - destruct C as (c & m & C). eexists _, _, _. split; [exact C|]. apply file_flat in C. pose proof (start_left data) as SL. unfold start, left_ in SL.
    assert (L : len (Rc (read None (init_state data))) <= len data) by (unfold Rc; pose proof (chars_len (rest (pt (read None (init_state data))))); unfold len in *; lia). nia.
Qed.

Lemma counted gp limit data : 1000 * ((len data + 1) * (len data + 1)) <= limit ->
  fst (counted_run gp limit data) = parse_expr (run_action gp) the_grammar (parse_bound data) (str "File") g_File [] (read None (init_state data)) /\
  snd (counted_run gp limit data) <= 1000 * ((len data + 1) * (len data + 1)).
Proof.
  intros L. destruct (file_cost data) as (o & c & m & C & B).
  destruct (proj1 (counter (run_action gp) the_grammar data grammar_lits limit (parse_bound data)) (str "File") g_File [] (read None (init_state data)) 0 o c m ltac:(vm_compute; reflexivity) (init_inv data) C ltac:(lia)) as [E K].
  unfold counted_run. split; [exact E|]. pose proof (parse_terminates gp data) as T. unfold start in T. destruct (parse_expr (run_action gp) _ _ _ _ _ _) as [|msg rl s1|v ok en s1]; [congruence|lia|lia].
Qed.

(** * C52 *)
Theorem C52_quadratic :
  forall gp limit data, let n := N.of_nat (List.length data) in 1000 * ((n + 1) * (n + 1)) <= limit ->
    snd (counted_run gp limit data) <= 1000 * ((n + 1) * (n + 1)).
Proof. intros gp limit data n L. apply (counted gp limit data L). Qed.
Print Assumptions C52_quadratic.
Theorem C52_limit_never_reached :
  forall gp filename data, (N.of_nat (List.length data) <= 100000000) -> counted_Parse gp filename data = Parse gp filename data.
Proof.
  intros gp filename data L. assert (B : 1000 * ((len data + 1) * (len data + 1)) <= maxExprCnt) by (unfold len, maxExprCnt in *; nia).
  destruct (counted gp maxExprCnt data B) as [E _]. unfold counted_Parse, Parse, parse_fuel. rewrite E. clear.
  destruct (parse_expr (run_action gp) _ _ _ _ _ _) as [|msg rl s1|v [] en s1]; try reflexivity. destruct (errs s1); reflexivity.
Qed.
Print Assumptions C52_limit_never_reached.

(** A rule of 33 characters takes 465 evaluations; and a limit of 464 would stop
    its parse, so the counter is not idle. *)
Definition ex_rule : text := str "(Add8 x y) && x > 3 => (Sub8 y x)".
Example C52_example :
  snd (counted_run ParseExpr maxExprCnt ex_rule) = 465 /\
  match fst (counted_run ParseExpr 465 ex_rule) with PRes _ ok _ _ => ok = true | _ => False end /\
  match fst (counted_run ParseExpr 464 ex_rule) with PPanic m _ _ => m = errMaxExprCnt | _ => False end.
Proof. vm_compute. auto. Qed.
(** Growth that is really quadratic, when the expression reader accepts a comment:
    each rule looks for the end of the comment before its condition up to the end
    of the file.  Twice the text, three times the work. *)
Fixpoint commented (n : nat) : text := match n with O => [] | S n => str "(A) && // => (B) " ++ commented n end.
Example C52_growth : let work n := snd (counted_run (fun _ => ParseExpr (str "x")) maxExprCnt (commented n)) in
  map work [40; 80]%nat = [22180; 71520] /\ List.length (commented 80) = 1360%nat.
Proof. split; vm_compute; reflexivity. Qed.
