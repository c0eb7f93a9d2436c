(** Readers (C55).  Vocabulary: SpecRead.v. *)
From Verif Require Import Text GoAst Ast Parse GoParser ReadAll SpecRead.
From Coq Require Import Arith Lia.

Lemma read_loop_delivers {S} (rd : reader S) grow : (forall n, n < grow n) ->
  forall s t e, delivers rd s t e -> forall cap b, List.length b <= cap -> exists n, forall fuel, n <= fuel ->
    read_loop rd grow fuel cap b s = Some (match e with EOF => Ok (b ++ t) | Failed m => Err m end).
Proof.
  intros G. fix IH 4. intros s t e [s0 t0 e0 HN HE] cap b L.
  set (cap' := if List.length b =? cap then grow cap else cap).
  assert (R : 0 < cap' - List.length b).
  { unfold cap'. destruct (Nat.eqb_spec (List.length b) cap) as [->|N]; [specialize (G cap)|]; lia. }
  destruct (rd s0 (cap' - List.length b)) as [[c [x|]] s'] eqn:E.
  - destruct (HE _ _ _ _ R E) as (Lc & -> & ->). exists 1. intros [|fuel] Hf; [lia|]. cbn [read_loop]. fold cap'. rewrite E.
    destruct (Nat.ltb_spec cap' (List.length b + List.length c)); [lia|]. destruct e0; reflexivity.
  - destruct (HN _ _ _ R E) as (Lc & t' & -> & D). destruct (IH s' t' e0 D cap' (b ++ c)) as [n Hn]; [rewrite app_length; lia|].
    exists (Datatypes.S n). intros [|fuel] Hf; [lia|]. cbn [read_loop]. fold cap'. rewrite E.
    destruct (Nat.ltb_spec cap' (List.length b + List.length c)); [lia|]. rewrite Hn by lia. rewrite app_assoc. reflexivity.
Qed.

(** What parse.Reader returns depends only on the text a reader delivers and on how
    it ends, not on the pieces: it is what parsing the whole text returns, or the
    reader's error.  [grow] is how append grows a slice. *)
Theorem C55_reader :
  forall S (rd : reader S) grow gp filename s t e, (forall n, n < grow n) -> delivers rd s t e ->
    exists rounds, forall fuel, rounds <= fuel ->
      Reader_from rd grow gp filename fuel s =
        Some (match e with EOF => Parse gp filename t | Failed m => Err m end).
Proof.
  intros S rd grow gp filename s t e G D. destruct (read_loop_delivers rd grow G s t e D 512 []) as [n H]; [cbn; lia|].
  exists n. intros fuel L. unfold Reader_from, read_all. rewrite (H fuel L). cbn [app]. destruct e; reflexivity.
Qed.
Print Assumptions C55_reader.

Lemma delivers_by {S} (rd : reader S) s t e :
  (forall n, 0 < n -> match rd s n with
     | (c, None, s') => List.length c <= n /\ exists t', t = c ++ t' /\ delivers rd s' t' e
     | (c, Some e', _) => List.length c <= n /\ t = c /\ e' = e end) -> delivers rd s t e.
Proof. intros H. constructor; intros n *; intros Hn E; specialize (H n Hn); rewrite E in H; exact H. Qed.
(** parse.String reads all of its argument. *)
Lemma string_delivers t : delivers string_reader t t EOF.
Proof.
  remember (List.length t) as k eqn:K. assert (L : List.length t <= k) by lia. clear K. revert t L.
  induction k as [|k IH]; intros t L; apply delivers_by; intros n Hn; destruct t as [|c t]; cbn [string_reader].
  - split; [cbn; lia|]. auto.
  - cbn in L. lia.
  - split; [cbn; lia|]. auto.
  - split; [rewrite firstn_length; lia|]. exists (skipn n (c :: t)). split; [symmetry; apply firstn_skipn|]. apply IH. rewrite skipn_length. cbn [List.length] in *. lia.
Qed.
Theorem C55_string :
  forall grow gp s, (forall n, n < grow n) ->
    exists rounds, forall fuel, rounds <= fuel -> Reader_from string_reader grow gp (str "string") fuel s = Some (String_ gp s).
Proof. intros grow gp s G. exact (C55_reader _ _ grow gp (str "string") s s EOF G (string_delivers s)). Qed.
Print Assumptions C55_string.

(** A reader that follows a script: pieces (cut to the room given, the rest is kept),
    then an ending, given with the last piece or after it. *)
Definition scripted : reader (list text * read_err) := fun '(pieces, e) n =>
  match pieces with
  | [] => ([], Some e, ([], e))
  | [p] => if List.length p <=? n then (p, Some e, ([], e)) else (firstn n p, None, ([skipn n p], e))
  | p :: ps => if List.length p <=? n then (p, None, (ps, e)) else (firstn n p, None, (skipn n p :: ps, e))
  end.
Lemma scripted_delivers ps e : delivers scripted (ps, e) (List.concat ps) e.
Proof.
  remember (List.length ps + List.length (List.concat ps)) as k eqn:K. assert (L : List.length ps + List.length (List.concat ps) <= k) by lia. clear K. revert ps L.
  induction k as [|k IH]; intros ps L; apply delivers_by; intros n Hn; destruct ps as [|p ps]; cbn [scripted].
  - split; [cbn; lia|]. auto.
  - cbn in L. lia.
  - split; [cbn; lia|]. auto.
  - assert (A : List.length p <= n -> List.length p <= n /\ exists t', List.concat (p :: ps) = p ++ t' /\ delivers scripted (ps, e) t' e).
    { intros Hp. split; [exact Hp|]. exists (List.concat ps). split; [reflexivity|]. apply IH. cbn in L. rewrite app_length in L. lia. }
    assert (B : n < List.length p -> List.length (firstn n p) <= n /\ exists t', List.concat (p :: ps) = firstn n p ++ t' /\ delivers scripted (skipn n p :: ps, e) t' e).
    { intros Hp. split; [rewrite firstn_length; lia|]. exists (List.concat (skipn n p :: ps)). split; [cbn; rewrite app_assoc, firstn_skipn; reflexivity|]. apply IH.
      cbn [List.length List.concat] in *. rewrite app_length in *. rewrite skipn_length. lia. }
    destruct (Nat.leb_spec (List.length p) n) as [Hp|Hp]; destruct ps as [|q ps]; auto. cbn. rewrite app_nil_r. auto.
Qed.
Example C55_example : exists f,
  delivers scripted (map str ["(Add8 x"; ""; " y) => "; "(Add8 y x)"]%string, EOF) (str "(Add8 x y) => (Add8 y x)") EOF /\
  Reader_from scripted (fun n => 2 * n + 1) ParseExpr (str "in") 10 (map str ["(Add8 x"; ""; " y) => "; "(Add8 y x)"]%string, EOF) = Some (Ok f) /\
  Reader_from scripted (fun n => 2 * n + 1) ParseExpr (str "in") 10 (map str ["(Add8 x y) => x"; ""]%string, Failed (str "timeout")) = Some (Err (str "timeout")).
Proof. eexists. split; [exact (scripted_delivers (map str ["(Add8 x"; ""; " y) => "; "(Add8 y x)"]%string) EOF)|]. split; vm_compute; reflexivity. Qed.
