(** filepath.Join keeps to the directory. *)
From Verif Require Import Text Path SpecPath.
From Coq Require Import Arith Bool Lia.
Open Scope nat_scope.
Open Scope list_scope.

Notation no_slash := (fun n : text => ~ In "/"%char n).
Definition tail (ps : list text) : text := match ps with [] => [] | _ => slash :: with_slashes ps end.
Lemma with_cons n ps : with_slashes (n :: ps) = n ++ tail ps.
Proof. destruct ps; cbn; [rewrite app_nil_r|]; reflexivity. Qed.
Lemma tail_cons n ps : tail (n :: ps) = slash :: n ++ tail ps.
Proof. unfold tail at 1. rewrite with_cons. reflexivity. Qed.
Lemma tail_app a b : tail (a ++ b) = tail a ++ tail b.
Proof. induction a as [|n a IH]; [reflexivity|]. cbn [app]. rewrite !tail_cons, IH. cbn [app]. rewrite <- app_assoc. reflexivity. Qed.
Lemma with_app a b : a <> [] -> with_slashes (a ++ b) = with_slashes a ++ tail b.
Proof. destruct a as [|n a]; [congruence|]. intros _. cbn [app]. rewrite !with_cons, tail_app, app_assoc. reflexivity. Qed.
Lemma tail_end ps : at_end (tail ps) = true.
Proof. destruct ps; reflexivity. Qed.
Lemma element_end e r : no_slash e -> at_end r = true -> element (e ++ r) = (e, r).
Proof.
  intros N E. induction e as [|c e IH]; cbn [app element].
  - destruct r as [|c r]; [reflexivity|]. cbn in *. rewrite E. reflexivity.
  - destruct (is_slash c) eqn:S; [apply is_slash_true in S; subst; elim N; left; reflexivity|]. rewrite IH by (intros I; apply N; right; exact I). reflexivity.
Qed.

(** The state of the loop: [k] times "..", then names (the last first). *)
Definition st := (nat * list text)%type.
Definition act (rooted : bool) (s : st) (e : text) : st :=
  let '(k, ns) := s in
  if text_eqb e [] then s else if text_eqb e (str ".") then s
  else if text_eqb e (str "..") then match ns with x :: ns => (k, ns) | [] => if rooted then s else (S k, []) end
  else (k, e :: ns).
Definition spell (rooted : bool) (names : list text) : text := if rooted then slash :: with_slashes names else with_slashes names.
Definition path_of (s : st) : list text := repeat (str "..") (fst s) ++ rev (snd s).
Definition out_of (rooted : bool) (s : st) : text := rev (spell rooted (path_of s)).
Definition dd_of (rooted : bool) (s : st) : nat := List.length (spell rooted (repeat (str "..") (fst s))).
Definition sane (rooted : bool) (s : st) : Prop := (rooted = true -> fst s = 0) /\ Forall file_name (snd s).

Lemma spell_cons_len rooted l : List.length (spell rooted l) = List.length (with_slashes l) + (if rooted then 1 else 0).
Proof. destruct rooted; cbn; lia. Qed.
Lemma ups_pos k : 0 < k -> 0 < List.length (with_slashes (repeat (str "..") k)).
Proof. destruct k; [lia|]. intros _. cbn [repeat]. rewrite with_cons. cbn. lia. Qed.
Lemma path_pos s : Forall file_name (snd s) -> path_of s <> [] -> 0 < List.length (with_slashes (path_of s)).
Proof.
  intros F N. destruct s as [k ns]. cbn in F. unfold path_of in *. cbn [fst snd] in *. destruct k as [|k].
  - cbn [repeat app] in *. apply Forall_rev in F. destruct (rev ns) as [|n l]; [contradiction|]. rewrite with_cons, app_length. inversion F as [|? ? (_ & Fn & _)]; subst. destruct n; [contradiction|]. cbn. lia.
  - cbn [repeat app]. rewrite with_cons. cbn. lia.
Qed.
Lemma out_empty rooted s : sane rooted s -> (List.length (out_of rooted s) =? (if rooted then 1 else 0)) = true <-> path_of s = [].
Proof.
  intros [K F]. unfold out_of. rewrite rev_length, spell_cons_len, Nat.eqb_eq. split.
  - intros H. destruct (path_of s) eqn:E; [reflexivity|]. pose proof (path_pos s F) as P. rewrite E in P. specialize (P ltac:(discriminate)). destruct rooted; lia.
  - intros ->. cbn. destruct rooted; reflexivity.
Qed.
Lemma spell_snoc rooted l e : spell rooted (l ++ [e]) = spell rooted l ++ (match l with [] => [] | _ => [slash] end) ++ e.
Proof.
  unfold spell. destruct l as [|n l]; [destruct rooted; reflexivity|]. rewrite with_app by discriminate. rewrite tail_cons. cbn [tail]. rewrite app_nil_r. destruct rooted; [reflexivity|]. reflexivity.
Qed.
Lemma path_push k ns e : path_of (k, e :: ns) = path_of (k, ns) ++ [e].
Proof. unfold path_of. cbn [fst snd rev]. rewrite app_assoc. reflexivity. Qed.

Lemma backtrack_noslash dd : forall e r, no_slash e -> dd <= List.length r -> e <> [] ->
  backtrack dd (e ++ r) = if dd <? List.length r then backtrack dd r else r.
Proof.
  induction e as [|c e IH]; intros r N L Ne; [congruence|]. cbn [app backtrack].
  assert (Hc : is_slash c = false) by (destruct (is_slash c) eqn:S; [apply is_slash_true in S; subst; elim N; left; reflexivity|reflexivity]).
  rewrite Hc. cbn [negb]. rewrite andb_true_r. destruct e as [|c' e].
  - cbn [app]. reflexivity.
  - replace (dd <? List.length ((c' :: e) ++ r)) with true by (symmetry; apply Nat.ltb_lt; rewrite app_length; cbn; lia).
    apply IH; [intros I; apply N; right; exact I|exact L|discriminate].
Qed.

Lemma dd_eq rooted k ns : dd_of rooted (k, ns) = List.length (spell rooted (repeat (str "..") k)).
Proof. reflexivity. Qed.
Lemma dd_less rooted k ns : sane rooted (k, ns) -> (dd_of rooted (k, ns) <? List.length (out_of rooted (k, ns))) = match ns with [] => false | _ => true end.
Proof.
  intros [_ F]. rewrite dd_eq. unfold out_of. rewrite rev_length. unfold path_of. cbn [fst snd] in *. destruct ns as [|n ns].
  - cbn [rev]. rewrite app_nil_r. apply Nat.ltb_irrefl.
  - apply Nat.ltb_lt. rewrite !spell_cons_len. cbn [rev]. inversion F as [|? ? (_ & Fn & _) _]; subst. destruct n as [|c n]; [contradiction|].
    destruct (repeat (str "..") k) as [|u us]; [cbn [app]|].
    + destruct (rev ns ++ [c :: n]) as [|x l] eqn:E; [destruct (rev ns); discriminate|].
      assert (Forall file_name (x :: l)) as G.
      { rewrite <- E. apply Forall_app. inversion F; subst. split; [apply Forall_rev; assumption|constructor; auto]. }
      inversion G as [|? ? (_ & Gn & _)]; subst. rewrite with_cons, app_length. cbn. destruct x; [contradiction|]. cbn. lia.
    + rewrite with_app by discriminate. rewrite app_length. destruct (rev ns ++ [c :: n]) as [|x l] eqn:E; [destruct (rev ns); discriminate|]. rewrite tail_cons. cbn. lia.
Qed.
Lemma backtrack_pop rooted k x ns : sane rooted (k, x :: ns) -> backtrack (dd_of rooted (k, x :: ns)) (out_of rooted (k, x :: ns)) = out_of rooted (k, ns).
Proof.
  intros S. assert (S' : sane rooted (k, ns)) by (destruct S as [S1 S2]; split; [exact S1|inversion S2; assumption]).
  destruct S as [_ S]. cbn [snd] in S. inversion S as [|? ? (Nx & Nx1 & _)]; subst. clear S.
  unfold out_of at 1. rewrite path_push, spell_snoc, !rev_app_distr.
  assert (Le : dd_of rooted (k, x :: ns) <= List.length (out_of rooted (k, ns))).
  { change (dd_of rooted (k, x :: ns)) with (dd_of rooted (k, ns)). pose proof (dd_less rooted k ns S') as D. destruct ns as [|y ns].
    - unfold dd_of, out_of, path_of. cbn [fst snd rev]. rewrite rev_length, app_nil_r. lia.
    - apply Nat.ltb_lt in D. lia. }
  rewrite <- app_assoc, backtrack_noslash; [|intros I; apply Nx; apply in_rev; exact I| |intros R; apply (f_equal (@rev ascii)) in R; rewrite rev_involutive in R; contradiction].
  - destruct (path_of (k, ns)) as [|y l] eqn:E.
    + change (dd_of rooted (k, x :: ns)) with (dd_of rooted (k, ns)). cbn [rev app].
      assert (Z : (dd_of rooted (k, ns) <? List.length (rev (spell rooted []))) = false).
      { apply Nat.ltb_ge. unfold dd_of. rewrite rev_length. unfold path_of in E. cbn [fst snd] in *. destruct (repeat (str "..") k); [lia|discriminate]. }
      rewrite Z. unfold out_of. rewrite E. reflexivity.
    + rewrite <- E. cbn [rev app]. fold (out_of rooted (k, ns)).
      change (dd_of rooted (k, x :: ns)) with (dd_of rooted (k, ns)) in *. cbn [List.length].
      replace (dd_of rooted (k, ns) <? S (List.length (out_of rooted (k, ns)))) with true by (symmetry; apply Nat.ltb_lt; lia).
      cbn [backtrack]. change (is_slash slash) with true. cbn [negb]. rewrite andb_false_r. reflexivity.
  - rewrite app_length. unfold out_of in Le. lia.
Qed.

Lemma step_loop rooted s e r fuel : sane rooted s -> no_slash e -> at_end r = true -> List.length (e ++ r) <= fuel ->
  exists fuel', List.length r <= fuel' /\ sane rooted (act rooted s e) /\
    clean_loop fuel rooted (e ++ r) (out_of rooted s) (dd_of rooted s) = clean_loop fuel' rooted r (out_of rooted (act rooted s e)) (dd_of rooted (act rooted s e)).
Proof.
  intros Sn N E L. destruct s as [k ns]. unfold act. destruct (text_eqb e []) eqn:E0; [apply text_eqb_eq in E0; subst; exists fuel; auto|].
  destruct e as [|c e]; [discriminate|]. clear E0. destruct fuel as [|fuel]; [cbn in L; lia|]. cbn [app List.length] in L.
  assert (Hc : is_slash c = false) by (destruct (is_slash c) eqn:S; [apply is_slash_true in S; subst; elim N; left; reflexivity|reflexivity]).
  destruct (text_eqb (c :: e) (str ".")) eqn:E1.
  { apply text_eqb_eq in E1. inversion E1; subst. exists fuel. split; [exact (le_S_n _ _ L)|]. split; [exact Sn|]. cbn [app clean_loop]. change (is_slash ".") with false. change (is_dot ".") with true. cbn [andb]. rewrite E. reflexivity. }
  destruct (text_eqb (c :: e) (str "..")) eqn:E2.
  { apply text_eqb_eq in E2. inversion E2; subst. cbn [app List.length] in L. exists fuel. split; [lia|].
    assert (L1 : clean_loop (S fuel) rooted (["."; "."]%char ++ r) (out_of rooted (k, ns)) (dd_of rooted (k, ns)) =
      (if dd_of rooted (k, ns) <? List.length (out_of rooted (k, ns)) then clean_loop fuel rooted r (backtrack (dd_of rooted (k, ns)) (out_of rooted (k, ns))) (dd_of rooted (k, ns))
       else if rooted then clean_loop fuel rooted r (out_of rooted (k, ns)) (dd_of rooted (k, ns))
       else let out := "."%char :: "."%char :: (if 0 <? List.length (out_of rooted (k, ns)) then slash :: out_of rooted (k, ns) else out_of rooted (k, ns)) in clean_loop fuel rooted r out (List.length out))).
    { cbn [app clean_loop]. change (is_slash ".") with false. change (is_dot ".") with true. change (at_end ("."%char :: r)) with false. cbn [andb tl]. rewrite E. reflexivity. }
    rewrite L1, dd_less by exact Sn. destruct ns as [|x ns].
    - destruct rooted; [split; [exact Sn|reflexivity]|]. split; [split; [discriminate|constructor]|].
      assert (X : out_of false (S k, []) = "."%char :: "."%char :: (if 0 <? List.length (out_of false (k, [])) then slash :: out_of false (k, []) else out_of false (k, []))).
      { unfold out_of, path_of. cbn [fst snd rev]. rewrite !app_nil_r. unfold spell.
        replace (repeat (str "..") (S k)) with (repeat (str "..") k ++ [str ".."]) by (clear; induction k as [|k IH]; [reflexivity|]; cbn [repeat app] in *; rewrite IH; reflexivity).
        destruct k as [|k]; [reflexivity|]. rewrite with_app by discriminate. rewrite rev_app_distr. change (tail [str ".."]) with (slash :: str ".."). rewrite rev_length.
        pose proof (ups_pos (S k) ltac:(lia)) as P. apply Nat.ltb_lt in P. rewrite P. reflexivity. }
      cbv zeta. rewrite <- X. f_equal. unfold dd_of, out_of, path_of. cbn [fst snd rev]. rewrite rev_length, app_nil_r. reflexivity.
    - split; [destruct Sn as [S1 S2]; split; [exact S1|inversion S2; assumption]|]. rewrite backtrack_pop by exact Sn. reflexivity. }
  exists fuel. split; [rewrite app_length in L; lia|].
  assert (Fe : file_name (c :: e)).
  { split; [exact N|]. split; [discriminate|]. split; intros X; rewrite X in *; [rewrite (proj2 (text_eqb_eq _ _) eq_refl) in E1|rewrite (proj2 (text_eqb_eq _ _) eq_refl) in E2]; discriminate. }
  split; [destruct Sn as [S1 S2]; split; [exact S1|constructor; assumption]|].
  cbn [app clean_loop]. rewrite Hc.
  assert (D1 : is_dot c && at_end (e ++ r) = false).
  { unfold is_dot. destruct (ascii_dec c "."%char) as [->|]; [|reflexivity]. cbn [andb]. destruct e as [|d e]; [destruct Fe as (_ & _ & X & _); elim X; reflexivity|]. cbn. destruct (is_slash d) eqn:S; [|reflexivity].
    apply is_slash_true in S. subst. elim N. right; left; reflexivity. }
  rewrite D1.
  assert (D2 : is_dot c && match e ++ r with d :: p'' => is_dot d && at_end p'' | [] => false end = false).
  { unfold is_dot. destruct (ascii_dec c "."%char) as [->|]; [|reflexivity]. cbn [andb]. destruct e as [|d e]; [destruct Fe as (_ & _ & X & _); elim X; reflexivity|]. cbn [app].
    destruct (ascii_dec d "."%char) as [->|]; [|reflexivity]. cbn [andb]. destruct e as [|x e]; [destruct Fe as (_ & _ & _ & X); elim X; reflexivity|]. cbn. destruct (is_slash x) eqn:S; [|reflexivity].
    apply is_slash_true in S. subst. elim N. right; right; left; reflexivity. }
  rewrite D2. change (c :: e ++ r) with ((c :: e) ++ r). rewrite (element_end (c :: e) r N E).
  change (dd_of rooted (k, (c :: e) :: ns)) with (dd_of rooted (k, ns)). f_equal.
  assert (X : out_of rooted (k, (c :: e) :: ns) = rev (c :: e) ++ rev (match path_of (k, ns) with [] => [] | _ => [slash] end) ++ out_of rooted (k, ns)).
  { unfold out_of. rewrite path_push, spell_snoc, !rev_app_distr, <- app_assoc. reflexivity. }
  rewrite X. f_equal. pose proof (out_empty rooted (k, ns) Sn) as O.
  destruct (path_of (k, ns)) as [|y l] eqn:Ep.
  - rewrite (proj2 O eq_refl). cbn [negb rev app]. unfold out_of. rewrite Ep. reflexivity.
  - destruct (List.length (out_of rooted (k, ns)) =? (if rooted then 1 else 0)) eqn:Z; [discriminate (proj1 O eq_refl)|]. cbn [negb rev app]. unfold out_of. rewrite Ep. reflexivity.
Qed.
Lemma tail_loop rooted : forall ps s fuel, sane rooted s -> Forall no_slash ps -> List.length (tail ps) <= fuel ->
  clean_loop fuel rooted (tail ps) (out_of rooted s) (dd_of rooted s) = out_of rooted (fold_left (act rooted) ps s) /\ sane rooted (fold_left (act rooted) ps s).
Proof.
  induction ps as [|e ps IH]; intros s fuel S F L.
  - cbn [tail fold_left]. split; [destruct fuel; reflexivity|exact S].
  - rewrite tail_cons in *. inversion F; subst. destruct fuel as [|fuel]; [cbn in L; lia|]. cbn [clean_loop fold_left]. change (is_slash slash) with true. cbn match.
    destruct (step_loop rooted s e (tail ps) fuel S H1 (tail_end ps) ltac:(cbn in L; lia)) as (fuel' & L' & S' & ->). apply IH; assumption.
Qed.
Lemma with_loop rooted e ps s fuel : sane rooted s -> Forall no_slash (e :: ps) -> List.length (with_slashes (e :: ps)) <= fuel ->
  clean_loop fuel rooted (with_slashes (e :: ps)) (out_of rooted s) (dd_of rooted s) = out_of rooted (fold_left (act rooted) (e :: ps) s) /\ sane rooted (fold_left (act rooted) (e :: ps) s).
Proof.
  intros S F L. rewrite with_cons in *. inversion F; subst. cbn [fold_left].
  destruct (step_loop rooted s e (tail ps) fuel S H1 (tail_end ps) L) as (fuel' & L' & S' & ->). apply tail_loop; assumption.
Qed.

Lemma act_name rooted s n : file_name n -> act rooted s n = (fst s, n :: snd s).
Proof.
  intros (_ & N1 & N2 & N3). destruct s as [k ns]. unfold act.
  destruct (text_eqb n []) eqn:E; [apply text_eqb_eq in E; contradiction|]. destruct (text_eqb n (str ".")) eqn:E1; [apply text_eqb_eq in E1; contradiction|].
  destruct (text_eqb n (str "..")) eqn:E2; [apply text_eqb_eq in E2; contradiction|]. reflexivity.
Qed.
Definition final (rooted : bool) (ps : list text) : st := fold_left (act rooted) ps (0, []).
Lemma spell_pos rooted s n : sane rooted s -> file_name n -> rev (out_of rooted (fst s, n :: snd s)) = spell rooted (path_of s ++ [n]) /\ out_of rooted (fst s, n :: snd s) <> [].
Proof.
  intros S N. assert (E : rev (out_of rooted (fst s, n :: snd s)) = spell rooted (path_of s ++ [n])).
  { destruct s as [k ns]. cbn [fst snd]. unfold out_of. rewrite rev_involutive, path_push. reflexivity. }
  split; [exact E|]. intros X. rewrite X in E. cbn in E. rewrite spell_snoc in E. symmetry in E. apply app_eq_nil in E. destruct E as [_ E]. apply app_eq_nil in E. destruct E as [_ E]. destruct N as (_ & N & _). contradiction.
Qed.

(** Clean, on a path that ends in a name. *)
Lemma clean_names e ps n : Forall no_slash (e :: ps) -> file_name n ->
  (forall rooted, rooted = (match e :: ps with [] :: _ :: _ => true | _ => false end) ->
     Clean (with_slashes (e :: ps) ++ str "/" ++ n) = if text_eqb (with_slashes (e :: ps)) [] then slash :: n else spell rooted (path_of (final rooted (e :: ps)) ++ [n])).
Proof.
  intros F N rooted R.
  assert (Fn : Forall no_slash (e :: ps ++ [n])) by (inversion F; subst; constructor; [assumption|]; apply Forall_app; split; [assumption|constructor; [exact (proj1 N)|constructor]]).
  assert (Es : with_slashes (e :: ps) ++ str "/" ++ n = with_slashes (e :: ps ++ [n])).
  { rewrite (with_app (e :: ps) [n] : _ -> with_slashes (e :: ps ++ [n]) = _) by discriminate. rewrite tail_cons. cbn [tail]. rewrite app_nil_r. reflexivity. }
  rewrite Es. destruct (text_eqb (with_slashes (e :: ps)) []) eqn:E0.
  { apply text_eqb_eq in E0. rewrite with_cons in E0. apply app_eq_nil in E0. destruct E0 as [-> E0]. destruct ps; [|discriminate]. cbn [app].
    change (with_slashes [[]; n]) with (slash :: n). unfold Clean. change (is_slash slash) with true. cbn match.
    assert (Sn : sane true (0, [])) by (split; [reflexivity|constructor]).
    destruct (with_loop true n [] (0, []) (List.length (slash :: n)) Sn ltac:(constructor; [exact (proj1 N)|constructor]) ltac:(cbn; lia)) as [L _].
    cbn [with_slashes fold_left] in L. rewrite act_name in L by exact N. change (out_of true (0, [])) with [slash] in L. change (dd_of true (0, [])) with 1 in L. rewrite L.
    destruct (spell_pos true (0, []) n Sn N) as [E P]. destruct (out_of true (fst (0, []), n :: snd (0, []))); [congruence|]. rewrite E. reflexivity. }
  assert (Fin : forall ro l, Forall no_slash l -> sane ro (final ro l)).
  { intros ro l Fl. apply (tail_loop ro l (0, []) (List.length (tail l))); [split; [destruct ro; reflexivity|constructor]|exact Fl|lia]. }
  destruct e as [|c e].
  - destruct ps as [|e ps]; [discriminate|]. subst rooted. cbn [app]. rewrite with_cons. cbn [app]. rewrite tail_cons. unfold Clean. change (is_slash slash) with true. cbn match.
    assert (Sn : sane true (0, [])) by (split; [reflexivity|constructor]).
    destruct (with_loop true e (ps ++ [n]) (0, []) (List.length (slash :: e ++ tail (ps ++ [n]))) Sn ltac:(inversion Fn; assumption) ltac:(rewrite with_cons; cbn; lia)) as [L _].
    rewrite with_cons in L. change (out_of true (0, [])) with [slash] in L. change (dd_of true (0, [])) with 1 in L. rewrite L.
    change (fold_left (act true) (e :: ps ++ [n]) (0, [])) with (fold_left (act true) ((e :: ps) ++ [n]) (0, [])). rewrite fold_left_app. cbn [fold_left]. fold (fold_left (act true) (e :: ps) (0, [])). change (fold_left (act true) (e :: ps) (0, [])) with (final true ([] :: e :: ps)). rewrite act_name by exact N.
    destruct (spell_pos true (final true ([] :: e :: ps)) n (Fin true _ F) N) as [E P]. destruct (out_of true (fst _, n :: snd _)); [congruence|]. exact E.
  - assert (rooted = false) as -> by (rewrite R; reflexivity). clear R. rewrite with_cons. cbn [app]. unfold Clean.
    assert (Hc : is_slash c = false) by (destruct (is_slash c) eqn:S; [apply is_slash_true in S; subst; inversion F as [|? ? X]; elim X; left; reflexivity|reflexivity]). rewrite Hc.
    assert (Sn : sane false (0, [])) by (split; [discriminate|constructor]).
    destruct (with_loop false (c :: e) (ps ++ [n]) (0, []) (List.length (c :: e ++ tail (ps ++ [n]))) Sn Fn ltac:(rewrite with_cons; cbn; lia)) as [L _].
    rewrite with_cons in L. change (out_of false (0, [])) with (@nil ascii) in L. change (dd_of false (0, [])) with 0 in L. cbn [app] in L. rewrite L.
    change (fold_left (act false) ((c :: e) :: ps ++ [n]) (0, [])) with (fold_left (act false) (((c :: e) :: ps) ++ [n]) (0, [])). rewrite fold_left_app. cbn [fold_left]. change (fold_left (act false) ps (act false (0, []) (c :: e))) with (final false ((c :: e) :: ps)). rewrite act_name by exact N.
    destruct (spell_pos false (final false ((c :: e) :: ps)) n (Fin false _ F) N) as [E P]. destruct (out_of false (fst _, n :: snd _)); [congruence|]. exact E.
Qed.
(** filepath.Join. *)
Lemma join_names dir ps n : names_of dir ps -> file_name n -> exists rooted,
  (rooted = true <-> absolute dir) /\ sane rooted (final rooted ps) /\ Join dir n = spell rooted (path_of (final rooted ps) ++ [n]).
Proof.
  intros (Ne & -> & F) N. destruct ps as [|e ps]; [congruence|].
  exists (match e :: ps with [] :: _ :: _ => true | _ => false end). set (rooted := match e :: ps with [] :: _ :: _ => true | _ => false end).
  split; [|split].
  - unfold rooted, absolute. rewrite with_cons. destruct e as [|c e].
    + destruct ps; [split; discriminate|]. rewrite tail_cons. split; reflexivity.
    + cbn. split; [discriminate|]. intros X. inversion X; subst. inversion F as [|? ? Y]; elim Y; left; reflexivity.
  - apply (tail_loop rooted (e :: ps) (0, []) (List.length (tail (e :: ps)))); [split; [destruct rooted; reflexivity|constructor]|exact F|lia].
  - destruct (text_eqb (with_slashes (e :: ps)) []) eqn:E0.
    + pose proof E0 as E1. apply text_eqb_eq in E1. rewrite E1. rewrite with_cons in E1. apply app_eq_nil in E1. destruct E1 as [-> E1]. destruct ps; [|discriminate].
      subst rooted. cbn [final fold_left]. change (act false (0, []) []) with (0, @nil text). cbn. destruct n as [|c n]; [destruct N as (_ & N & _); contradiction|].
      assert (Sn : sane false (0, [])) by (split; [discriminate|constructor]).
      destruct (with_loop false (c :: n) [] (0, []) (List.length (c :: n)) Sn ltac:(constructor; [exact (proj1 N)|constructor]) ltac:(cbn; lia)) as [L _].
      cbn [with_slashes fold_left] in L. rewrite act_name in L by exact N. change (out_of false (0, [])) with (@nil ascii) in L. change (dd_of false (0, [])) with 0 in L.
      unfold Clean. assert (Hc : is_slash c = false) by (destruct (is_slash c) eqn:S; [apply is_slash_true in S; subst; destruct N as [X _]; elim X; left; reflexivity|reflexivity]). rewrite Hc, L.
      destruct (spell_pos false (0, []) (c :: n) Sn N) as [E P]. destruct (out_of false (fst (0, []), (c :: n) :: snd (0, []))); [congruence|]. exact E.
    + pose proof (clean_names e ps n F N rooted eq_refl) as C. rewrite E0 in C. rewrite <- C. unfold Join. destruct (with_slashes (e :: ps)); [discriminate|]. reflexivity.
Qed.

Section Semantics.
  Context {D : Type}.
  Variables (root : D) (up : D -> D) (child : D -> text -> option D).
  Hypothesis NL : no_links root up child.
  Notation step := (step up child).
  Notation walk := (walk up child).
  Lemma walk_app a b d d' : walk d (a ++ b) d' <-> exists d1, walk d a d1 /\ walk d1 b d'.
  Proof.
    revert d. induction a as [|n a IH]; intros d; cbn [app].
    - split; [intros H; exists d; split; [constructor|exact H]|intros (d1 & H1 & H); inversion H1; subst; exact H].
    - split.
      + intros H. inversion H; subst. apply IH in H4. destruct H4 as (d3 & W1 & W2). exists d3. split; [econstructor; eassumption|exact W2].
      + intros (d1 & H1 & H2). inversion H1; subst. econstructor; [eassumption|]. apply IH. eauto.
  Qed.
  Lemma step_name d n d' : file_name n -> step d n d' -> child d n = Some d'.
  Proof. intros (_ & N1 & N2 & N3) S. inversion S; subst; congruence || contradiction || assumption. Qed.
  Lemma walk_act rooted start s d e d' : sane rooted s -> (rooted = true -> start = root) -> walk start (path_of s) d -> step d e d' -> no_slash e ->
    walk start (path_of (act rooted s e)) d'.
  Proof.
    intros [K F] R W S N. destruct s as [k ns]. cbn [fst snd] in *. unfold act.
    destruct (text_eqb e []) eqn:E; [apply text_eqb_eq in E; subst; inversion S; subst; [exact W|destruct H as (_ & X & _); contradiction]|].
    destruct (text_eqb e (str ".")) eqn:E1; [apply text_eqb_eq in E1; subst; inversion S; subst; [exact W|destruct H as (_ & _ & X & _); contradiction]|].
    destruct (text_eqb e (str "..")) eqn:E2.
    - apply text_eqb_eq in E2. subst. assert (d' = up d) as -> by (inversion S; subst; [reflexivity|destruct H as (_ & _ & _ & X); contradiction]). destruct ns as [|x ns].
      + destruct rooted.
        * rewrite (K eq_refl) in *. cbn in *. inversion W; subst. rewrite (R eq_refl). rewrite (proj1 NL). constructor.
        * unfold path_of in *. cbn [fst snd rev] in *. rewrite app_nil_r in *.
          replace (repeat (str "..") (Datatypes.S k)) with (repeat (str "..") k ++ [str ".."]) by (clear; induction k as [|k IH]; [reflexivity|]; cbn [repeat app] in *; rewrite IH; reflexivity).
          apply walk_app. exists d. split; [exact W|]. econstructor; [apply st_up|constructor].
      + rewrite path_push in W. apply walk_app in W. destruct W as (d1 & W & W'). inversion W' as [|? ? ? ? S1 W2]; subst. inversion W2; subst.
        inversion F; subst. apply step_name in S1; [|assumption]. rewrite (proj2 NL _ _ _ S1). exact W.
    - rewrite path_push. apply walk_app. exists d. split; [exact W|]. econstructor; [exact S|constructor].
  Qed.
  Lemma walk_final rooted start : (rooted = true -> start = root) -> forall ps s d d', sane rooted s -> Forall no_slash ps -> walk start (path_of s) d -> walk d ps d' ->
    walk start (path_of (fold_left (act rooted) ps s)) d'.
  Proof.
    intros R. induction ps as [|e ps IH]; intros s d d' S F W W'; inversion W'; subst; [exact W|]. cbn [fold_left]. inversion F; subst.
    eapply IH; [|assumption|eapply walk_act; eassumption|eassumption].
    destruct (step_loop rooted s e [] (List.length (e ++ [])) S ltac:(assumption) eq_refl ltac:(lia)) as (_ & _ & Sx & _). exact Sx.
  Qed.

  Theorem join_in cwd dir d n : leads root up child cwd dir d -> file_name n -> file_in root up child cwd (Join dir n) d n.
  Proof.
    intros (ps & start & Np & W & St) N. destruct (join_names dir ps n Np N) as (rooted & Ro & S & ->).
    assert (R : rooted = true -> start = root) by (intros X; apply Ro in X; destruct St as [[_ ->]|[Y _]]; [reflexivity|contradiction]).
    assert (W1 : walk start (path_of (final rooted ps)) d).
    { unfold final. eapply walk_final; [exact R|split; [destruct rooted; reflexivity|constructor]|exact (proj2 (proj2 Np))|constructor|exact W]. }
    set (l := path_of (final rooted ps)) in *.
    assert (Fl : Forall no_slash l).
    { unfold l, path_of. apply Forall_app. split; [|apply Forall_rev; destruct S as [_ S]; revert S; apply Forall_impl; intros a [H _]; exact H].
      apply Forall_forall. intros x I. apply repeat_spec in I. subst. intros [I|[I|[]]]; discriminate. }
    assert (Wl : walk start (l ++ [[]]) d) by (apply walk_app; exists d; split; [exact W1|econstructor; [apply st_empty|constructor]]).
    assert (Ns : Forall no_slash [[]]) by (constructor; [intros []|constructor]).
    destruct rooted.
    - right. rewrite spell_snoc. rewrite (R eq_refl) in *. destruct l as [|x l'] eqn:El.
      + exists []. split; [reflexivity|]. exists [[]; []], root. split; [split; [discriminate|]; split; [reflexivity|repeat constructor; intros []]|]. split; [|left; split; reflexivity].
        econstructor; [apply st_empty|]. exact Wl.
      + exists (spell true (x :: l')). split; [reflexivity|]. exists ([] :: (x :: l') ++ [[]]), root. split; [|split; [|left; split; reflexivity]].
        * split; [discriminate|]. split; [|constructor; [intros []|apply Forall_app; auto]]. rewrite with_cons, tail_app. cbn [app]. unfold spell. unfold tail at 1. cbn [tail with_slashes]. reflexivity.
        * econstructor; [apply st_empty|]. exact Wl.
    - assert (start = cwd) as -> by (destruct St as [[X _]|[_ X]]; [apply Ro in X; discriminate|exact X]).
      destruct l as [|x l'] eqn:El.
      + left. split; [reflexivity|]. inversion W1; subst; reflexivity.
      + right. rewrite spell_snoc. exists (spell false (x :: l')). split; [reflexivity|]. exists ((x :: l') ++ [[]]), cwd. split; [|split; [exact Wl|]].
        * split; [discriminate|]. split; [|apply Forall_app; auto]. rewrite with_app by discriminate. reflexivity.
        * right. split; [|reflexivity]. unfold absolute, spell. rewrite with_cons. destruct x as [|c x].
          -- exfalso. assert (Z : ~ In ([] : text) l).
             { unfold l, path_of. intros I. apply in_app_or in I. destruct I as [I|I]; [apply repeat_spec in I; discriminate|]. apply in_rev in I. destruct S as [_ S]. rewrite Forall_forall in S. destruct (S _ I) as (_ & X & _). contradiction. }
             apply Z. rewrite El. left. reflexivity.
          -- cbn. intros X. inversion X; subst. inversion Fl as [|? ? Y]; elim Y; left; reflexivity.
  Qed.
End Semantics.

Lemma names_exist p : exists ps, names_of p ps.
Proof.
  induction p as [|c p (ps & Ne & -> & F)].
  - exists [[]]. split; [discriminate|]. split; [reflexivity|]. constructor; [intros []|constructor].
  - destruct ps as [|n ps]; [congruence|]. destruct (ascii_dec c "/"%char) as [->|N].
    + exists ([] :: n :: ps). split; [discriminate|]. split; [reflexivity|]. constructor; [intros []|exact F].
    + exists ((c :: n) :: ps). split; [discriminate|]. split; [rewrite !with_cons; reflexivity|]. inversion F; subst. constructor; [|assumption]. intros [X|X]; [congruence|contradiction].
Qed.
Theorem join_tidy dir n : file_name n -> tidy (Join dir n).
Proof.
  intros N. destruct (names_exist dir) as [ps Np]. destruct (join_names dir ps n Np N) as (rooted & _ & [S1 S2] & ->).
  assert (F : Forall file_name (rev (snd (final rooted ps)) ++ [n])) by (apply Forall_app; split; [apply Forall_rev; exact S2|constructor; auto]).
  destruct rooted.
  - unfold spell, path_of. rewrite (S1 eq_refl). cbn [repeat app]. exact (tidy_absolute _ F).
  - unfold spell, path_of. rewrite <- app_assoc. apply tidy_relative; [exact F|]. destruct (rev (snd (final false ps))); discriminate.
Qed.
