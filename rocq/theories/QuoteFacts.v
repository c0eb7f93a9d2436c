(** Quote.v: quoting is injective and gives one line. *)
From Verif Require Import Text Utf8 Quote.
From Coq Require Import Arith NArith Bool Lia.
Open Scope N_scope.

Definition bs : ascii := "\"%char.
Definition unhex (c : ascii) : N := if byte_val c <? 58 then byte_val c - 48 else byte_val c - 87.
Definition num (l : text) : N := fold_left (fun a c => 16 * a + unhex c) l 0.
Lemma hex_ok n : n < 16 -> unhex (hex n) = n /\ hex n <> nl /\ hex n <> bs.
Proof.
  intros H. assert (n = 0 \/ n = 1 \/ n = 2 \/ n = 3 \/ n = 4 \/ n = 5 \/ n = 6 \/ n = 7 \/ n = 8 \/ n = 9 \/ n = 10 \/ n = 11 \/ n = 12 \/ n = 13 \/ n = 14 \/ n = 15) by lia.
  repeat (destruct H0 as [->|H0]; [repeat split; vm_compute; congruence|]). subst. repeat split; vm_compute; congruence.
Qed.
Lemma hexes_length k n : List.length (hexes k n) = k.
Proof. revert n. induction k; intros; cbn; [reflexivity|]. rewrite app_length, IHk. cbn. lia. Qed.
Lemma num_hexes k : forall n, n < 16 ^ N.of_nat k -> num (hexes k n) = n.
Proof.
  induction k; intros n H.
  - cbn in *. lia.
  - cbn [hexes]. unfold num. rewrite fold_left_app. fold (num (hexes k (n / 16))). cbn [fold_left].
    rewrite IHk. 2:{ rewrite Nat2N.inj_succ, N.pow_succ_r' in H. apply N.div_lt_upper_bound; lia. }
    rewrite (proj1 (hex_ok (n mod 16) ltac:(apply N.mod_lt; lia))). symmetry. apply N.div_mod. lia.
Qed.
Lemma hexes_nl k n : ~ In nl (hexes k n).
Proof.
  revert n. induction k; intros n; cbn; [tauto|]. rewrite in_app_iff. intros [I|[I|[]]]; [exact (IHk _ I)|].
  exact (proj1 (proj2 (hex_ok (n mod 16) ltac:(apply N.mod_lt; lia))) I).
Qed.

(** The encoding of a rune. *)
Definition encode (r : N) : text :=
  map ascii_of_N
    (if r <? 128 then [r]
     else if r <? 2048 then [192 + r / 64; 128 + r mod 64]
     else if r <? 65536 then [224 + r / 4096; 128 + r / 64 mod 64; 128 + r mod 64]
     else [240 + r / 262144; 128 + r / 4096 mod 64; 128 + r / 64 mod 64; 128 + r mod 64]).
Lemma byte_back c : ascii_of_N (byte_val c) = c. Proof. apply ascii_N_embedding. Qed.
Lemma byte_lt c : byte_val c < 256. Proof. destruct c as [[] [] [] [] [] [] [] []]; vm_compute; reflexivity. Qed.


Lemma div64 a b : b < 64 -> (a * 64 + b) / 64 = a /\ (a * 64 + b) mod 64 = b.
Proof.
  intros H. split.
  - symmetry. apply N.div_unique with b; lia.
  - symmetry. apply N.mod_unique with a; lia.
Qed.
Lemma enc2 x y : 194 <= x <= 223 -> 128 <= y <= 191 -> let r := (x - 192) * 64 + (y - 128) in
  encode r = [ascii_of_N x; ascii_of_N y] /\ 128 <= r < 1114112.
Proof.
  intros Hx Hy r. subst r. split; [|lia]. unfold encode.
  destruct (N.ltb_spec ((x - 192) * 64 + (y - 128)) 128); [lia|]. destruct (N.ltb_spec ((x - 192) * 64 + (y - 128)) 2048); [|lia].
  destruct (div64 (x - 192) (y - 128)) as [-> ->]; [lia|]. cbn [map]. do 3 f_equal; lia.
Qed.
Lemma enc3 x y z : 224 <= x <= 239 -> 128 <= y <= 191 -> (x = 224 -> 160 <= y) -> 128 <= z <= 191 ->
  let r := (x - 224) * 4096 + (y - 128) * 64 + (z - 128) in
  encode r = [ascii_of_N x; ascii_of_N y; ascii_of_N z] /\ 128 <= r < 1114112.
Proof.
  intros Hx Hy Hxy Hz r. subst r. split; [|lia]. set (a := x - 224). set (b := y - 128). set (c := z - 128).
  assert (Ea : x = 224 + a) by lia. assert (Eb : y = 128 + b) by lia. assert (Ec : z = 128 + c) by lia.
  assert (a = 0 -> 32 <= b) by lia. assert (Ha : a <= 15) by lia. assert (Hb : b <= 63) by lia. assert (Hc : c <= 63) by lia. clearbody a b c. subst x y z.
  replace (a * 4096 + b * 64 + c) with ((a * 64 + b) * 64 + c) by lia. unfold encode.
  destruct (N.ltb_spec ((a * 64 + b) * 64 + c) 128); [lia|]. destruct (N.ltb_spec ((a * 64 + b) * 64 + c) 2048); [lia|].
  destruct (N.ltb_spec ((a * 64 + b) * 64 + c) 65536); [|lia].
  change 4096 with (64 * 64). rewrite <- N.div_div by lia.
  destruct (div64 (a * 64 + b) c) as [-> ->]; [lia|]. destruct (div64 a b) as [-> ->]; [lia|]. reflexivity.
Qed.
Lemma enc4 x y z w : 240 <= x <= 244 -> 128 <= y <= 191 -> (x = 240 -> 144 <= y) -> (x = 244 -> y <= 143) -> 128 <= z <= 191 -> 128 <= w <= 191 ->
  let r := (x - 240) * 262144 + (y - 128) * 4096 + (z - 128) * 64 + (w - 128) in
  encode r = [ascii_of_N x; ascii_of_N y; ascii_of_N z; ascii_of_N w] /\ 128 <= r < 1114112.
Proof.
  intros Hx Hy Hxy Hxy' Hz Hw r. subst r. split; [|lia]. set (a := x - 240). set (b := y - 128). set (c := z - 128). set (d := w - 128).
  assert (Ea : x = 240 + a) by lia. assert (Eb : y = 128 + b) by lia. assert (Ec : z = 128 + c) by lia. assert (Ed : w = 128 + d) by lia.
  assert (a = 0 -> 16 <= b) by lia. assert (Ha : a <= 4) by lia. assert (Hb : b <= 63) by lia. assert (Hc : c <= 63) by lia. assert (Hd : d <= 63) by lia.
  clearbody a b c d. subst x y z w.
  replace (a * 262144 + b * 4096 + c * 64 + d) with (((a * 64 + b) * 64 + c) * 64 + d) by lia. unfold encode.
  set (r := ((a * 64 + b) * 64 + c) * 64 + d).
  assert (65536 <= r) by (subst r; lia).
  destruct (N.ltb_spec r 128); [lia|]. destruct (N.ltb_spec r 2048); [lia|]. destruct (N.ltb_spec r 65536); [lia|].
  change 262144 with (64 * 64 * 64). change 4096 with (64 * 64). rewrite <- !N.div_div by lia. subst r.
  destruct (div64 ((a * 64 + b) * 64 + c) d) as [-> ->]; [lia|]. destruct (div64 (a * 64 + b) c) as [-> ->]; [lia|].
  destruct (div64 a b) as [-> ->]; [lia|]. reflexivity.
Qed.

Lemma decode_encode s r n : s <> [] -> decode_rune s = (r, n) -> ~ (r = RuneError /\ n = 1%nat) ->
  firstn n s = encode r /\ r < 1114112 /\ (1 <= n <= List.length s)%nat /\
  (r < 128 /\ (exists c, s = c :: skipn 1 s /\ n = 1%nat /\ r = byte_val c) \/ 128 <= r /\ Forall (fun c => 128 <= byte_val c) (firstn n s)).
Proof.
  intros Ne E V. destruct s as [|a s]; [contradiction|]. unfold decode_rune in E. pose proof (byte_lt a) as La.
  repeat match type of E with
  | context [if ?b then _ else _] => let X := fresh "X" in destruct b eqn:X
  | context [match ?l with [] => _ | _ :: _ => _ end] => destruct l
  end; inversion E; subst; try (exfalso; apply V; split; reflexivity).
  all: unfold cont in *.
  all: repeat match goal with
       | X : (_ && _) = true |- _ => apply andb_true_iff in X; destruct X
       | X : (_ <=? _) = true |- _ => apply N.leb_le in X
       | X : (_ <? _) = true |- _ => apply N.ltb_lt in X
       end.
  all: repeat match goal with
       | X : (_ =? _) = true |- _ => apply N.eqb_eq in X
       | X : (_ =? _) = false |- _ => apply N.eqb_neq in X
       end.
  { cbn [firstn List.length]. unfold encode. destruct (N.ltb_spec (byte_val a) 128); [|lia]. cbn. rewrite byte_back.
    repeat split; try lia. left. split; [lia|]. exists a. auto. }
  all: cbn [firstn List.length].
  all: match goal with
       | |- context [((byte_val ?a - 192) * 64 + (byte_val ?b - 128))] => destruct (enc2 (byte_val a) (byte_val b)) as [-> ?]; try lia
       | |- context [((byte_val ?a - 224) * 4096 + (byte_val ?b - 128) * 64 + (byte_val ?c - 128))] =>
           destruct (enc3 (byte_val a) (byte_val b) (byte_val c)) as [-> ?]; try lia
       | |- context [((byte_val ?a - 240) * 262144 + (byte_val ?b - 128) * 4096 + (byte_val ?c - 128) * 64 + (byte_val ?d - 128))] =>
           destruct (enc4 (byte_val a) (byte_val b) (byte_val c) (byte_val d)) as [-> ?]; try lia
       end.
  all: rewrite !byte_back; split; [reflexivity|]; split; [lia|]; split; [lia|]; right; split; [lia|]; repeat constructor; lia.
Qed.

(** Reading a quoted text back. *)
Definition simple (e : ascii) : ascii :=
  if ascii_dec e "a" then "007" else if ascii_dec e "b" then "008" else if ascii_dec e "f" then "012" else
  if ascii_dec e "n" then "010" else if ascii_dec e "r" then "013" else if ascii_dec e "t" then "009" else
  if ascii_dec e "v" then "011" else e.
Fixpoint unq (fuel : nat) (t : text) : text :=
  match fuel, t with
  | S f, c :: t1 =>
      if ascii_dec c bs then
        match t1 with
        | e :: t2 =>
            if ascii_dec e "x" then ascii_of_N (num (firstn 2 t2)) :: unq f (skipn 2 t2)
            else if ascii_dec e "u" then encode (num (firstn 4 t2)) ++ unq f (skipn 4 t2)
            else if ascii_dec e "U" then encode (num (firstn 8 t2)) ++ unq f (skipn 8 t2)
            else simple e :: unq f t2
        | [] => []
        end
      else c :: unq f t1
  | _, _ => []
  end.

Lemma unq_raw l t : Forall (fun c => c <> bs) l -> forall fuel, (List.length l <= fuel)%nat -> unq fuel (l ++ t) = l ++ unq (fuel - List.length l) t.
Proof.
  induction 1 as [|c l H F IH]; intros fuel L; cbn in *; [now rewrite Nat.sub_0_r|]. destruct fuel; [lia|].
  cbn. destruct (ascii_dec c bs); [contradiction|]. rewrite IH by lia. reflexivity.
Qed.
Lemma unq_x n t fuel : n < 256 -> unq (S fuel) (str "\x" ++ hexes 2 n ++ t) = ascii_of_N n :: unq fuel t.
Proof.
  intros H. cbn [unq app str list_ascii_of_string]. destruct (ascii_dec _ bs) as [_|X]; [|now destruct X].
  destruct (ascii_dec _ "x") as [_|X]; [|now destruct X].
  rewrite firstn_app, skipn_app, hexes_length. replace (2 - 2)%nat with O by lia. rewrite app_nil_r.
  rewrite firstn_all2 by (rewrite hexes_length; lia). rewrite skipn_all2 by (rewrite hexes_length; lia).
  rewrite num_hexes by exact H. reflexivity.
Qed.
Lemma unq_u n t fuel : n < 65536 -> unq (S fuel) (str "\u" ++ hexes 4 n ++ t) = encode n ++ unq fuel t.
Proof.
  intros H. cbn [unq app str list_ascii_of_string]. destruct (ascii_dec _ bs) as [_|X]; [|now destruct X].
  destruct (ascii_dec _ "x") as [X|_]; [discriminate|]. destruct (ascii_dec _ "u") as [_|X]; [|now destruct X].
  rewrite firstn_app, skipn_app, hexes_length. replace (4 - 4)%nat with O by lia. rewrite app_nil_r.
  rewrite firstn_all2 by (rewrite hexes_length; lia). rewrite skipn_all2 by (rewrite hexes_length; lia).
  rewrite num_hexes by exact H. reflexivity.
Qed.
Lemma unq_U n t fuel : n < 4294967296 -> unq (S fuel) (str "\U" ++ hexes 8 n ++ t) = encode n ++ unq fuel t.
Proof.
  intros H. cbn [unq app str list_ascii_of_string]. destruct (ascii_dec _ bs) as [_|X]; [|now destruct X].
  destruct (ascii_dec _ "x") as [X|_]; [discriminate|]. destruct (ascii_dec _ "u") as [X|_]; [discriminate|].
  destruct (ascii_dec _ "U") as [_|X]; [|now destruct X].
  rewrite firstn_app, skipn_app, hexes_length. replace (8 - 8)%nat with O by lia. rewrite app_nil_r.
  rewrite firstn_all2 by (rewrite hexes_length; lia). rewrite skipn_all2 by (rewrite hexes_length; lia).
  rewrite num_hexes by exact H. reflexivity.
Qed.

Section Q.
  Variable wide_print : N -> bool.

  (** One rune. *)
  Lemma unq_escaped r enc t fuel :
    encode r = enc -> r < 1114112 -> (r < 128 /\ enc = [ascii_of_N r] \/ 128 <= r /\ Forall (fun c => 128 <= byte_val c) enc) ->
    (List.length (escaped wide_print r enc ++ t) <= fuel)%nat ->
    exists fuel', (List.length t <= fuel')%nat /\ unq fuel (escaped wide_print r enc ++ t) = enc ++ unq fuel' t.
  Proof.
    intros E L C. unfold escaped.
    destruct ((r =? 34) || (r =? 92)) eqn:Q.
    { apply orb_true_iff in Q. rewrite !N.eqb_eq in Q. assert (r < 128) by lia. destruct C as [[_ ->]|[C _]]; [|lia].
      intros F. cbn in F. destruct fuel as [|fuel]; [lia|]. exists fuel. split; [lia|]. destruct Q as [->| ->]; reflexivity. }
    apply orb_false_iff in Q. rewrite !N.eqb_neq in Q.
    destruct (is_print wide_print r) eqn:P.
    { intros F. assert (R : Forall (fun c => c <> bs) enc).
      { destruct C as [[C0 ->]|[_ C]].
        - constructor; [|constructor]. intros X. apply (f_equal byte_val) in X. unfold byte_val in X. rewrite N_ascii_embedding in X by lia.
          change (N_of_ascii bs) with 92 in X. lia.
        - eapply Forall_impl; [|exact C]. cbn. intros c Hc ->. change (byte_val bs) with 92 in Hc. lia. }
      rewrite app_length in F. exists (fuel - List.length enc)%nat. split; [lia|]. apply unq_raw; [exact R|lia]. }
    repeat match goal with
    | |- context [if r =? ?k then _ else _] => destruct (N.eqb_spec r k) as [->|?];
        [destruct C as [[_ ->]|[C _]]; [|lia]; intros F; cbn in F; destruct fuel as [|fuel]; [lia|]; exists fuel; split; [lia|reflexivity]|]
    end.
    destruct (N.ltb_spec r 32).
    { destruct C as [[_ ->]|[C _]]; [|lia]. rewrite <- app_assoc. intros F. rewrite !app_length, hexes_length in F. cbn in F. destruct fuel as [|fuel]; [lia|].
      exists fuel. split; [lia|]. rewrite unq_x by lia. reflexivity. }
    destruct (N.ltb_spec r 65536).
    { rewrite <- app_assoc. intros F. rewrite !app_length, hexes_length in F. cbn in F. destruct fuel as [|fuel]; [lia|].
      exists fuel. split; [lia|]. rewrite unq_u by lia. rewrite E. reflexivity. }
    rewrite <- app_assoc. intros F. rewrite !app_length, hexes_length in F. cbn in F. destruct fuel as [|fuel]; [lia|].
    exists fuel. split; [lia|]. rewrite unq_U by lia. rewrite E. reflexivity.
  Qed.

  Lemma unq_quoted n : forall s fuel, (List.length s <= n)%nat -> (List.length (quoted wide_print n s) <= fuel)%nat -> unq fuel (quoted wide_print n s) = s.
  Proof.
    induction n as [|n IH]; intros s fuel L F.
    - destruct s; [|cbn in L; lia]. destruct fuel; reflexivity.
    - destruct s as [|b s]; [destruct fuel; reflexivity|]. cbn [quoted] in *.
      destruct (decode_rune (b :: s)) as [r w] eqn:D.
      destruct ((w =? 1)%nat && (r =? RuneError)) eqn:B.
      + apply andb_true_iff in B. destruct B as [B1 B2]. apply Nat.eqb_eq in B1. apply N.eqb_eq in B2. subst w r.
        rewrite !app_length, hexes_length in F. cbn [List.length skipn str list_ascii_of_string] in F. destruct fuel as [|fuel]; [lia|]. rewrite unq_x by apply byte_lt. rewrite byte_back. cbn [skipn].
        rewrite IH; [reflexivity| |]; cbn in L; lia.
      + destruct (decode_encode (b :: s) r w ltac:(discriminate) D) as (E & R & W & C).
        { intros [-> ->]. cbn in B. discriminate. }
        destruct (unq_escaped r (firstn w (b :: s)) (quoted wide_print n (skipn w (b :: s))) fuel (eq_sym E) R) as (f' & F' & U).
        { destruct C as [(C & c & E1 & -> & ->)|C]; [left|right; exact C]. split; [exact C|]. cbn. injection E1 as ->. now rewrite byte_back. }
        { exact F. }
        rewrite U, IH; [apply firstn_skipn| |exact F'].
        pose proof (skipn_length w (b :: s)). lia.
  Qed.
  Lemma Quote_inj s s' : Quote wide_print s = Quote wide_print s' -> s = s'.
  Proof.
    unfold Quote. intros H. injection H as H. apply app_inj_tail in H. destruct H as [H _].
    rewrite <- (unq_quoted (List.length s) s (List.length (quoted wide_print (List.length s) s))) by lia. rewrite H. apply unq_quoted; lia.
  Qed.

  (** One line. *)
  Lemma escaped_nl r enc : (r < 128 /\ enc = [ascii_of_N r] \/ 128 <= r /\ Forall (fun c => 128 <= byte_val c) enc) -> ~ In nl (escaped wide_print r enc).
  Proof.
    intros C. assert (N : r <> 10 -> ~ In nl enc).
    { intros R. destruct C as [[L ->]|[_ C]].
      - intros [X|[]]. apply (f_equal byte_val) in X. unfold byte_val in X. rewrite N_ascii_embedding in X by lia. change (N_of_ascii nl) with 10 in X. lia.
      - intros I. rewrite Forall_forall in C. specialize (C _ I). change (byte_val nl) with 10 in C. lia. }
    unfold escaped. destruct ((r =? 34) || (r =? 92)) eqn:Q.
    { apply orb_true_iff in Q. rewrite !N.eqb_eq in Q. intros [X|X]; [discriminate|]. apply N; [lia|exact X]. }
    destruct (is_print wide_print r) eqn:P.
    { apply N. intros ->. discriminate. }
    repeat match goal with |- context [if ?b then _ else _] => destruct b; [cbn; try rewrite in_app_iff; intros X; try (intuition discriminate); fail|] end.
    repeat match goal with |- context [if ?b then _ else _] => destruct b end; rewrite in_app_iff; intros [X|X];
      try (cbn in X; intuition discriminate); eapply hexes_nl; eassumption.
  Qed.
  Lemma quoted_nl n : forall s, ~ In nl (quoted wide_print n s).
  Proof.
    induction n as [|n IH]; intros s; [intros []|]. destruct s as [|b s]; [intros []|]. cbn [quoted].
    destruct (decode_rune (b :: s)) as [r w] eqn:D. destruct ((w =? 1)%nat && (r =? RuneError)) eqn:B.
    - rewrite !in_app_iff. intros [X|[X|X]]; [cbn in X; intuition discriminate|eapply hexes_nl; exact X|eapply IH; exact X].
    - destruct (decode_encode (b :: s) r w ltac:(discriminate) D) as (E & R & W & C).
      { intros [-> ->]. cbn in B. discriminate. }
      rewrite in_app_iff. intros [X|X]; [|eapply IH; exact X]. eapply escaped_nl; [|exact X].
      destruct C as [(C & c & E1 & -> & ->)|C]; [left|right; exact C]. split; [exact C|]. cbn. injection E1 as ->. now rewrite byte_back.
  Qed.
  Lemma Quote_nl s : ~ In nl (Quote wide_print s).
  Proof. unfold Quote. intros [X|X]; [discriminate|]. rewrite in_app_iff in X. destruct X as [X|[X|[]]]; [eapply quoted_nl; exact X|discriminate]. Qed.
End Q.
