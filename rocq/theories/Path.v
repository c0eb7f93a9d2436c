(** Reference model of path/filepath.Join and Clean on Unix (Go standard library,
    src/path/filepath/path.go of Go 1.15), used by cmd/ssarules/main.go:52.  This is
    a dependency, not code of /repo. *)
From Verif Require Import Text.
From Coq Require Import Arith Bool.

(** '/', filepath.Separator on Unix. *)
Definition slash : ascii := "/"%char.
(** os.IsPathSeparator on Unix. *)
Definition is_slash (c : ascii) : bool := if ascii_dec c slash then true else false.
(** "path[r] == '.'", path.go. *)
Definition is_dot (c : ascii) : bool := if ascii_dec c "."%char then true else false.

(** The end of the path or of a path element (path.go, Clean). *)
Definition at_end (p : text) : bool := match p with [] => true | c :: _ => is_slash c end.

(** The next path element and the rest (path.go, Clean). *)
Fixpoint element (p : text) : text * text :=
  match p with
  | [] => ([], [])
  | c :: p' => if is_slash c then ([], p) else let '(e, r) := element p' in (c :: e, r)
  end.

(** "for out.w > dotdot && out.index(out.w) != '/' { out.w-- }", after out.w has
    been decremented once.  [out] is the buffer reversed, its length is out.w (path.go, Clean). *)
Fixpoint backtrack (dotdot : nat) (out : text) : text :=
  match out with
  | [] => []
  | c :: out' =>
      if (dotdot <? List.length out') && negb (is_slash c) then backtrack dotdot out' else out'
  end.

(** The loop of Clean (path.go, Clean). *)
Fixpoint clean_loop (fuel : nat) (rooted : bool) (p out : text) (dotdot : nat) : text :=
  match fuel with
  | 0 => out
  | S fuel =>
      match p with
      | [] => out
      | c :: p' =>
          if is_slash c then clean_loop fuel rooted p' out dotdot
          else if is_dot c && at_end p' then clean_loop fuel rooted p' out dotdot
          else if is_dot c && match p' with d :: p'' => is_dot d && at_end p'' | [] => false end then
            let rest := tl p' in
            if dotdot <? List.length out then clean_loop fuel rooted rest (backtrack dotdot out) dotdot
            else if rooted then clean_loop fuel rooted rest out dotdot
            else
              let out := "."%char :: "."%char :: (if 0 <? List.length out then slash :: out else out) in
              clean_loop fuel rooted rest out (List.length out)
          else
            let out := if negb (List.length out =? (if rooted then 1 else 0)) then slash :: out else out in
            let '(e, rest) := element p in
            clean_loop fuel rooted rest (rev e ++ out) dotdot
      end
  end.

(** filepath.Clean, called by Join. *)
Definition Clean (p : text) : text :=
  match p with
  | [] => str "."
  | c :: p' =>
      let rooted := is_slash c in
      let out := if rooted then clean_loop (List.length p) true p' [slash] 1
                 else clean_loop (List.length p) false p [] 0 in
      match out with [] => str "." | _ => rev out end
  end.

(** filepath.Join of two elements (cmd/ssarules/main.go:53). *)
Definition Join (dir name : text) : text :=
  match dir, name with
  | [], [] => []
  | [], _ => Clean name
  | _, _ => Clean (dir ++ [slash] ++ name)
  end.

Example Join_examples :
  Join (str "") (str "0001.smt2") = str "0001.smt2" /\
  Join (str "out/") (str "0001.smt2") = str "out/0001.smt2" /\
  Join (str "./a//b/../c/.") (str "0001.smt2") = str "a/c/0001.smt2" /\
  Join (str "/") (str "0001.smt2") = str "/0001.smt2" /\
  Join (str "../../x/..") (str "0001.smt2") = str "../../0001.smt2" /\
  Join (str "/../a") (str "0001.smt2") = str "/a/0001.smt2" /\
  Join (str "a/..") (str "0001.smt2") = str "0001.smt2".
Proof. repeat split. Qed.

(** * Joining a plain file name *)

(** A plain name: not empty, no slash, not "." or ".." (for statements only). *)
Definition plain_name (n : text) : Prop :=
  n <> [] /\ ~ In slash n /\ n <> str "." /\ n <> str "..".

Lemma is_slash_true c : is_slash c = true <-> c = slash.
Proof. unfold is_slash. destruct (ascii_dec c slash); split; congruence. Qed.
Lemma element_plain n : ~ In slash n -> element n = (n, []).
Proof.
  induction n as [|c n IH]; intros H; cbn; [reflexivity|].
  destruct (is_slash c) eqn:E; [apply is_slash_true in E; subst; elim H; left; reflexivity|].
  rewrite IH; [reflexivity|]. intros X. apply H. right. exact X.
Qed.

Lemma clean_name fuel rooted n out dd : plain_name n -> 1 <= fuel ->
  clean_loop fuel rooted n out dd =
  rev n ++ (if negb (List.length out =? (if rooted then 1 else 0)) then slash :: out else out).
Proof.
  intros (N0 & N1 & N2 & N3) F. destruct fuel as [|fuel]; [inversion F|].
  destruct n as [|c n]; [contradiction|]. cbn [clean_loop].
  destruct (is_slash c) eqn:E; [apply is_slash_true in E; subst; elim N1; left; reflexivity|].
  assert (D1 : is_dot c && at_end n = false).
  { unfold is_dot. destruct (ascii_dec c "."%char) as [->|]; [|reflexivity]. cbn.
    destruct n as [|d n]; [elim N2; reflexivity|]. cbn. destruct (is_slash d) eqn:D; [|reflexivity].
    apply is_slash_true in D. subst. elim N1. right; left; reflexivity. }
  rewrite D1.
  assert (D2 : is_dot c && match n with d :: p'' => is_dot d && at_end p'' | [] => false end = false).
  { unfold is_dot. destruct (ascii_dec c "."%char) as [->|]; [|reflexivity]. cbn.
    destruct n as [|d n]; [reflexivity|]. destruct (ascii_dec d "."%char) as [->|]; [|reflexivity]. cbn.
    destruct n as [|x n]; [elim N3; reflexivity|]. cbn. destruct (is_slash x) eqn:D; [|reflexivity].
    apply is_slash_true in D. subst. elim N1. right; right; left; reflexivity. }
  rewrite D2, element_plain by exact N1. destruct fuel; reflexivity.
Qed.

Lemma element_spec p : forall n, exists e r, element p = (e, r) /\ List.length r <= List.length p /\
  element (p ++ slash :: n) = (e, r ++ slash :: n).
Proof.
  induction p as [|c p IH]; intros n; cbn [element app].
  - exists [], []. split; [reflexivity|]. split; [apply le_n|reflexivity].
  - destruct (is_slash c); [exists [], (c :: p); auto|].
    destruct (IH n) as [e [r [-> [L ->]]]]. exists (c :: e), r. repeat split; cbn; auto.
Qed.
Lemma element_dec c p : is_slash c = false -> forall e r, element (c :: p) = (e, r) -> List.length r <= List.length p.
Proof.
  intros Hc e r. cbn [element]. rewrite Hc. destruct (element_spec p []) as [e' [r' [-> [L _]]]]. intros E. inversion E; subst. exact L.
Qed.

Lemma at_end_app p n : at_end (p ++ slash :: n) = at_end p.
Proof. destruct p; reflexivity. Qed.
Lemma dots_app p n :
  match p ++ slash :: n with d :: p'' => is_dot d && at_end p'' | [] => false end =
  match p with d :: p'' => is_dot d && at_end p'' | [] => false end.
Proof. destruct p as [|d p]; [reflexivity|]. cbn [app]. rewrite at_end_app. reflexivity. Qed.

(** The loop over a directory ends in a buffer that does not depend on the name. *)
Lemma clean_dir rooted : forall fuel p out dd, List.length p <= fuel ->
  exists out', forall n fuel', plain_name n -> fuel + 2 <= fuel' ->
    clean_loop fuel' rooted (p ++ slash :: n) out dd =
    rev n ++ (if negb (List.length out' =? (if rooted then 1 else 0)) then slash :: out' else out').
Proof.
  induction fuel as [|fuel IH]; intros p out dd L.
  - destruct p; [|inversion L]. exists out. intros n fuel' Hn Hf. cbn in Hf.
    destruct fuel' as [|fuel']; [inversion Hf|]. cbn [app clean_loop].
    change (is_slash slash) with true. cbn match. apply clean_name; [exact Hn|]. apply le_S_n in Hf. exact Hf.
  - destruct p as [|c p].
    { exists out. intros n fuel' Hn Hf. destruct fuel' as [|fuel']; [inversion Hf|]. cbn [app clean_loop].
      change (is_slash slash) with true. cbn match. apply clean_name; [exact Hn|].
      cbn in Hf. apply le_S_n in Hf. eapply Nat.le_trans; [|exact Hf]. rewrite Nat.add_comm. cbn. apply le_n_S, Nat.le_0_l. }
    cbn in L. apply le_S_n in L.
    assert (step : forall p1 out1 dd1, List.length p1 <= fuel ->
      (forall n fuel', plain_name n -> clean_loop (S fuel') rooted ((c :: p) ++ slash :: n) out dd =
         clean_loop fuel' rooted (p1 ++ slash :: n) out1 dd1) ->
      exists out', forall n fuel', plain_name n -> S fuel + 2 <= fuel' ->
        clean_loop fuel' rooted ((c :: p) ++ slash :: n) out dd =
        rev n ++ (if negb (List.length out' =? (if rooted then 1 else 0)) then slash :: out' else out')).
    { intros p1 out1 dd1 L1 E. destruct (IH p1 out1 dd1 L1) as [out' H]. exists out'. intros n fuel' Hn Hf.
      destruct fuel' as [|fuel']; [inversion Hf|]. rewrite E by exact Hn. apply H; [exact Hn|]. apply le_S_n. exact Hf. }
    destruct (is_slash c) eqn:E1.
    { apply (step p out dd L). intros n fuel' _. cbn [app clean_loop]. rewrite E1. reflexivity. }
    destruct (is_dot c && at_end p) eqn:E2.
    { apply (step p out dd L). intros n fuel' _. cbn [app clean_loop]. rewrite E1, at_end_app, E2. reflexivity. }
    destruct (is_dot c && match p with d :: p'' => is_dot d && at_end p'' | [] => false end) eqn:E3.
    { assert (Hp : exists d p2, p = d :: p2).
      { destruct p as [|d p2]; [rewrite andb_false_r in E3; discriminate|eauto]. }
      destruct Hp as [d [p2 ->]].
      assert (L2 : List.length p2 <= fuel) by (cbn in L; apply Nat.lt_le_incl; exact L).
      set (out1 := if dd <? List.length out then backtrack dd out else if rooted then out
                   else "."%char :: "."%char :: (if 0 <? List.length out then slash :: out else out)).
      set (dd1 := if dd <? List.length out then dd else if rooted then dd else List.length out1).
      apply (step p2 out1 dd1 L2). intros n fuel' _. cbn [app clean_loop].
      rewrite E1. rewrite (at_end_app (d :: p2) n : at_end (d :: p2 ++ slash :: n) = at_end (d :: p2)), E2.
      rewrite (dots_app (d :: p2) n : (is_dot d && at_end (p2 ++ slash :: n)) = (is_dot d && at_end p2)), E3.
      cbn [tl]. unfold out1, dd1, out1. destruct (dd <? List.length out); [reflexivity|]. destruct rooted; reflexivity. }
    destruct (element (c :: p)) as [e r] eqn:Ee.
    pose proof (element_dec c p E1 e r Ee) as Lr.
    apply (step r (rev e ++ (if negb (List.length out =? (if rooted then 1 else 0)) then slash :: out else out)) dd).
    { eapply Nat.le_trans; eauto. }
    intros n fuel' _. cbn [app clean_loop]. rewrite E1, at_end_app, E2, dots_app, E3.
    destruct (element_spec (c :: p) n) as [e' [r' [Ee' [_ E]]]]. rewrite Ee in Ee'. inversion Ee'; subst e' r'.
    cbn [app] in E. rewrite E. reflexivity.
Qed.

(** Joining a directory and a plain name puts a prefix, which depends on the
    directory only, before the name. *)
Theorem join_plain dir : exists pre, forall n, plain_name n -> Join dir n = pre ++ n.
Proof.
  destruct dir as [|c dir].
  - exists []. intros n Hn. unfold Join. destruct n as [|c n]; [destruct Hn as [H _]; contradiction|].
    unfold Clean. assert (E : is_slash c = false).
    { destruct (is_slash c) eqn:E; [|reflexivity]. apply is_slash_true in E. subst. destruct Hn as (_ & H & _). elim H. left; reflexivity. }
    rewrite E, clean_name by (try exact Hn; cbn; apply le_n_S, Nat.le_0_l). cbn [List.length Nat.eqb negb].
    rewrite app_nil_r. destruct (rev (c :: n)) eqn:R.
    + apply (f_equal (@List.length _)) in R. rewrite rev_length in R. discriminate.
    + rewrite <- R, rev_involutive. reflexivity.
  - assert (H : exists out', forall n, plain_name n ->
       Join (c :: dir) n = rev (rev n ++ out')).
    { unfold Join. cbn [app]. unfold Clean. destruct (is_slash c) eqn:E.
      - destruct (clean_dir true (List.length dir) dir [slash] 1 (le_n _)) as [out' H].
        exists (if negb (List.length out' =? 1) then slash :: out' else out'). intros n Hn.
        rewrite H; [|exact Hn|cbn; rewrite app_length; cbn].
        + destruct (rev n) as [|x l] eqn:R; [|reflexivity].
          apply (f_equal (@List.length _)) in R. rewrite rev_length in R. destruct Hn as [Hn _]. destruct n; [contradiction|discriminate].
        + rewrite <- plus_n_Sm. cbn. rewrite <- !plus_n_Sm, <- plus_n_O. apply le_n_S, le_n_S. apply Nat.le_add_r.
      - destruct (clean_dir false (List.length (c :: dir)) (c :: dir) [] 0 (le_n _)) as [out' H].
        exists (if negb (List.length out' =? 0) then slash :: out' else out'). intros n Hn.
        change (c :: dir ++ slash :: n) with ((c :: dir) ++ slash :: n).
        rewrite H; [|exact Hn|rewrite app_length; cbn].
        + destruct (rev n) as [|x l] eqn:R; [|reflexivity].
          apply (f_equal (@List.length _)) in R. rewrite rev_length in R. destruct Hn as [Hn _]. destruct n; [contradiction|discriminate].
        + apply le_n_S. destruct Hn as [Hn _]. destruct n; [contradiction|]. cbn. rewrite <- !plus_n_Sm, <- plus_n_O.
          apply le_n_S. apply le_n_S. apply Nat.le_add_r. }
    destruct H as [out' H]. exists (rev out'). intros n Hn. rewrite H by exact Hn.
    rewrite rev_app_distr, rev_involutive. reflexivity.
Qed.
