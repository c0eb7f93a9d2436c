(** Facts about the command line. *)
From Verif Require Import Text Flag SpecFlag.
From Coq Require Import Arith Lia Bool.

Lemma split_equals_cases s :
  (snd (split_equals s) = None /\ fst (split_equals s) = s /\ ~ In "="%char s) \/
  (exists v, snd (split_equals s) = Some v /\ s = fst (split_equals s) ++ "="%char :: v /\ ~ In "="%char (fst (split_equals s))).
Proof.
  induction s as [|c s IH]; [left; auto|]. cbn [split_equals]. destruct (ascii_dec c "=") as [->|N].
  - right. exists s. cbn. auto.
  - destruct (split_equals s) as [n o]. cbn [fst snd] in *. destruct IH as [(-> & -> & I)|(v & -> & -> & I)].
    + left. repeat split; auto. intros [E|E]; [congruence|auto].
    + right. exists v. repeat split. intros [E|E]; [congruence|auto].
Qed.
Lemma split_equals_none n : ~ In "="%char n -> split_equals n = (n, None).
Proof.
  induction n as [|c n IH]; intros I; [reflexivity|]. cbn [split_equals]. destruct (ascii_dec c "=") as [->|_]; [elim I; left; reflexivity|].
  rewrite IH; [reflexivity|]. intros X. apply I. right. exact X.
Qed.
Lemma split_equals_some n v : ~ In "="%char n -> split_equals (n ++ "="%char :: v) = (n, Some v).
Proof.
  induction n as [|c n IH]; intros I; [reflexivity|]. cbn [split_equals app]. destruct (ascii_dec c "=") as [->|_]; [elim I; left; reflexivity|].
  rewrite IH; [reflexivity|]. intros X. apply I. right. exact X.
Qed.

(** What one step makes of the arguments. *)
Definition one_spec (args : list text) (o : one) : Prop :=
  match o with
  | OSet v rest => exists h, dashes h /\ (args = (h ++ str "outdir") :: v :: rest \/ args = (h ++ str "outdir=" ++ v) :: rest)
  | OEnd rest => args = str "--" :: rest \/ rest = args /\ forall w r, args = w :: r -> ~ dashed w
  | OHelp => exists h name w rest, args = w :: rest /\ dashes h /\ (name = str "h" \/ name = str "help") /\ (w = h ++ name \/ exists v, w = h ++ name ++ str "=" ++ v)
  | OFail m =>
      (exists h w rest c, args = (h ++ w) :: rest /\ dashes h /\ hd_error w = Some c /\ (c = "-"%char /\ h = str "--" \/ c = "="%char) /\ m = str "bad flag syntax: " ++ h ++ w) \/
      (exists h name tail rest, args = (h ++ name ++ tail) :: rest /\ dashes h /\ ~ In "="%char name /\ (tail = [] \/ exists v, tail = str "=" ++ v) /\
         name <> [] /\ hd_error name <> Some "-"%char /\ ~ In name [str "outdir"; str "h"; str "help"] /\ m = str "flag provided but not defined: -" ++ name) \/
      (exists h, args = [h ++ str "outdir"] /\ dashes h /\ m = str "flag needs an argument: -outdir")
  end.

Lemma named_spec h w rest : dashes h -> w <> [] -> (h = str "-" -> hd_error w <> Some "-"%char) -> one_spec ((h ++ w) :: rest) (named (h ++ w) w rest).
Proof.
  intros Hh Hw H1. destruct w as [|c w]; [contradiction|]. cbn [named].
  destruct (ascii_dec c "-") as [->|N1].
  { left. exists h, ("-"%char :: w), rest, "-"%char. repeat split; auto. left. split; [reflexivity|]. destruct Hh as [->| ->]; [|reflexivity]. elim H1; reflexivity. }
  destruct (ascii_dec c "=") as [->|N2].
  { left. exists h, ("="%char :: w), rest, "="%char. repeat split; auto. }
  assert (X : exists n v tail, split_equals w = (n, v) /\ w = n ++ tail /\ ~ In "="%char n /\
     (v = None /\ tail = [] \/ exists x, v = Some x /\ tail = str "=" ++ x)).
  { destruct (split_equals_cases w) as [(A & B & C)|(v & A & B & C)]; destruct (split_equals w) as [n o]; cbn [fst snd] in *; subst.
    - exists w, None, []. rewrite app_nil_r. auto 10.
    - exists n, (Some v), (str "=" ++ v). repeat split; eauto. }
  destruct X as (n & v & tail & -> & -> & I & Hv). unfold set_flag.
  assert (Ic : ~ In "="%char (c :: n)) by (intros [E|E]; [congruence|auto]).
  destruct (text_eqb_spec (c :: n) (str "outdir")) as [E|Ne].
  - assert (Ea : c :: n ++ tail = str "outdir" ++ tail) by (rewrite <- E; reflexivity). rewrite Ea.
    destruct Hv as [(-> & ->)|(x & -> & ->)].
    + rewrite app_nil_r. destruct rest as [|v rest].
      * right. right. exists h. split; [reflexivity|]. split; [exact Hh|]. rewrite E. reflexivity.
      * exists h. split; [exact Hh|]. left. reflexivity.
    + exists h. split; [exact Hh|]. right. reflexivity.
  - destruct (text_eqb_spec (c :: n) (str "help")) as [E|Ne1]; [|destruct (text_eqb_spec (c :: n) (str "h")) as [E|Ne2]]; cbn [orb].
    1, 2: exists h, (c :: n); eexists _, rest; split; [reflexivity|]; split; [exact Hh|]; split; [auto|];
      destruct Hv as [(_ & ->)|(x & _ & ->)]; [left; rewrite app_nil_r; reflexivity|right; exists x; reflexivity].
    right. left. exists h, (c :: n), tail, rest. split; [reflexivity|]. split; [exact Hh|]. split; [exact Ic|].
    split; [destruct Hv as [(_ & ->)|(x & _ & ->)]; eauto|]. split; [discriminate|]. split; [cbn; congruence|]. split; [|reflexivity].
    intros [E|[E|[E|[]]]]; congruence.
Qed.
Lemma parseOne_spec args : one_spec args (parseOne args).
Proof.
  destruct args as [|[|m s] rest]; cbn [parseOne].
  - right. split; [reflexivity|]. intros w r E. discriminate.
  - right. split; [reflexivity|]. intros w r E [c [w' E']]. congruence.
  - destruct s as [|m' s].
    { right. split; [reflexivity|]. intros w r E [c [w' E']]. congruence. }
    destruct (ascii_dec m "-") as [->|N].
    2: { right. split; [reflexivity|]. intros w r E [c [w' E']]. congruence. }
    destruct (ascii_dec m' "-") as [->|N'].
    + destruct s as [|c s]; [left; reflexivity|]. apply (named_spec (str "--") (c :: s)); [right; reflexivity|discriminate|discriminate].
    + apply (named_spec (str "-") (m' :: s)); [left; reflexivity|discriminate|]. cbn. congruence.
Qed.
(** Conversely. *)
Lemma named_complete h w rest : dashes h -> w <> [] -> (h = str "-" -> hd_error w <> Some "-"%char) -> parseOne ((h ++ w) :: rest) = named (h ++ w) w rest.
Proof.
  intros [->| ->] Hw H; destruct w as [|c w]; try contradiction; cbn [str list_ascii_of_string app parseOne].
  - destruct (ascii_dec "-" "-") as [_|N]; [|contradiction]. destruct (ascii_dec c "-") as [->|_]; [|reflexivity]. elim H; reflexivity.
  - destruct (ascii_dec "-" "-") as [_|N]; [reflexivity|contradiction].
Qed.
Lemma parseOne_complete args o : one_spec args o -> parseOne args = o.
Proof.
  destruct o as [v rest|rest| |m]; cbn [one_spec].
  - intros (h & [->| ->] & [->| ->]); reflexivity.
  - intros [->|(-> & H)]; [reflexivity|]. destruct args as [|[|a [|b s]] r]; try reflexivity. cbn [parseOne].
    destruct (ascii_dec a "-") as [->|_]; [|reflexivity]. elim (H ("-"%char :: b :: s) r eq_refl). exists b, s. reflexivity.
  - intros (h & name & w & rest & -> & [->| ->] & [->| ->] & [->|(v & ->)]); reflexivity.
  - intros [(h & w & rest & c & -> & Hh & Hc & X & ->)|[(h & name & tail & rest & -> & Hh & I & Ht & Ne & Hd & Nk & ->)|(h & -> & [->| ->] & ->)]]; [| |reflexivity..].
    + destruct w as [|c' w]; [discriminate|]. inversion Hc; subst c'. rewrite named_complete; auto.
      * destruct X as [(-> & ->)| ->]; reflexivity.
      * discriminate.
      * intros ->. destruct X as [(_ & X)| ->]; [discriminate X|discriminate].
    + destruct name as [|c n]; [contradiction|]. rewrite named_complete; [|exact Hh|discriminate|intros _; exact Hd].
      cbn [app named]. destruct (ascii_dec c "-") as [->|_]; [elim Hd; reflexivity|]. destruct (ascii_dec c "=") as [->|_]; [elim I; left; reflexivity|].
      assert (S : exists v, split_equals (n ++ tail) = (n, v)).
      { assert (~ In "="%char n) by (intros X; apply I; right; exact X). destruct Ht as [->|(v & ->)]; [rewrite app_nil_r; eexists; apply split_equals_none; assumption|eexists; apply split_equals_some; assumption]. }
      destruct S as [v ->]. unfold set_flag. 
      destruct (text_eqb_spec (c :: n) (str "outdir")) as [E|_]; [elim Nk; rewrite E; left; reflexivity|].
      destruct (text_eqb_spec (c :: n) (str "help")) as [E|_]; [elim Nk; rewrite E; right; right; left; reflexivity|].
      destruct (text_eqb_spec (c :: n) (str "h")) as [E|_]; [elim Nk; rewrite E; right; left; reflexivity|]. reflexivity.
Qed.

Lemma parse_flags_outdirs args d d' rest : outdirs args d d' rest -> forall fuel, List.length args < fuel ->
  exists fuel', List.length rest < fuel' /\ parse_flags fuel d args = parse_flags fuel' d' rest.
Proof.
  induction 1 as [args d|h v args d d' rest Hh O IH|h v args d d' rest Hh O IH]; intros fuel L; [eauto|..]; destruct fuel as [|fuel]; try (cbn in L; lia).
  - destruct (IH fuel) as (f' & L' & E); [cbn in L; lia|]. exists f'. split; [exact L'|]. cbn [parse_flags].
    rewrite (parseOne_complete _ (OSet v args)) by (exists h; auto). exact E.
  - destruct (IH fuel) as (f' & L' & E); [cbn in L; lia|]. exists f'. split; [exact L'|]. cbn [parse_flags].
    rewrite (parseOne_complete _ (OSet v args)) by (exists h; auto). exact E.
Qed.
Lemma parse_flags_spec fuel : forall d args, List.length args < fuel -> exists d' rest, outdirs args d d' rest /\ (forall v r, parseOne rest <> OSet v r) /\
  parse_flags fuel d args = match parseOne rest with OSet _ _ => Help | OEnd r => Flags d' r | OHelp => Help | OFail m => BadFlags m end.
Proof.
  induction fuel as [|fuel IH]; intros d args L; [lia|]. cbn [parse_flags]. pose proof (parseOne_spec args) as S.
  destruct (parseOne args) as [v r|r| |m] eqn:E.
  2, 3, 4: exists d, args; split; [constructor|]; rewrite E; split; [discriminate|reflexivity].
  destruct S as (h & Hh & A).
  destruct (IH v r) as (d' & rest & O & N & P); [destruct A as [->| ->]; cbn in L; lia|].
  exists d', rest. split; [|auto]. destruct A as [->| ->]; [apply od_next; assumption|apply od_equals; assumption].
Qed.

Definition read_flags (args : list text) : flags := parse_flags (S (List.length args)) [] args.
Lemma read_rest args d rest : outdirs args [] d rest -> (forall v r, parseOne rest <> OSet v r) ->
  read_flags args = match parseOne rest with OSet _ _ => Help | OEnd r => Flags d r | OHelp => Help | OFail m => BadFlags m end.
Proof.
  intros O N. unfold read_flags. destruct (parse_flags_outdirs _ _ _ _ O (S (List.length args))) as (f & L & ->); [lia|].
  destruct f as [|f]; [lia|]. cbn [parse_flags]. destruct (parseOne rest) eqn:E; try reflexivity. elim (N _ _ eq_refl).
Qed.
Lemma read_files args d files : read_flags args = Flags d files <-> command_line args d files.
Proof.
  split.
  - intros H. destruct (parse_flags_spec (S (List.length args)) [] args) as (d' & rest & O & N & P); [lia|]. unfold read_flags in H. rewrite H in P.
    pose proof (parseOne_spec rest) as S. destruct (parseOne rest); try discriminate. inversion P; subst. destruct S as [->|(-> & S)]; [apply cl_dashes|apply cl_files]; assumption.
  - intros [fs O H|fs O].
    + assert (E : parseOne fs = OEnd fs) by (apply parseOne_complete; right; auto). rewrite (read_rest _ _ _ O); rewrite E; [reflexivity|discriminate].
    + rewrite (read_rest _ _ _ O); [reflexivity|discriminate].
Qed.
Lemma read_help args : read_flags args = Help <-> asks_help args.
Proof.
  split.
  - intros H. destruct (parse_flags_spec (S (List.length args)) [] args) as (d' & rest & O & N & P); [lia|]. unfold read_flags in H. rewrite H in P.
    pose proof (parseOne_spec rest) as S. destruct (parseOne rest) as [v r|r| |m] eqn:E; try discriminate; [elim (N _ _ eq_refl)|].
    destruct S as (h & name & w & r & -> & Hh & Hn & Hw). exists d', w, r, h, name. auto.
  - intros (d & w & rest & h & name & O & Hh & Hn & Hw).
    assert (E : parseOne (w :: rest) = OHelp) by (apply parseOne_complete; exists h, name, w, rest; auto).
    rewrite (read_rest _ _ _ O); rewrite E; [reflexivity|discriminate].
Qed.
Lemma read_bad args m : read_flags args = BadFlags m <-> misuse args m.
Proof.
  split.
  - intros H. destruct (parse_flags_spec (S (List.length args)) [] args) as (d' & rest & O & N & P); [lia|]. unfold read_flags in H. rewrite H in P.
    pose proof (parseOne_spec rest) as S. destruct (parseOne rest) as [v r|r| |x] eqn:E; try discriminate. inversion P; subst x.
    destruct S as [(h & w & r & c & -> & Hh & Hc & X & ->)|[(h & name & tail & r & -> & Hh & I & Ht & Ne & Hd & Nk & ->)|(h & -> & Hh & ->)]].
    + eapply mis_syntax; eassumption.
    + eapply mis_unknown; eassumption.
    + eapply mis_missing; eassumption.
  - intros H. assert (X : exists d rest, outdirs args [] d rest /\ parseOne rest = OFail m).
    { destruct H as [d h w rest c O Hh Hc X|d h name tail rest O Hh I Ht Ne Hd Nk|d h O Hh]; eexists _, _; (split; [exact O|]); apply parseOne_complete.
      - left. exists h, w, rest, c. auto.
      - right. left. exists h, name, tail, rest. auto 10.
      - right. right. exists h. auto. }
    destruct X as (d & rest & O & E). rewrite (read_rest _ _ _ O); rewrite E; [reflexivity|discriminate].
Qed.
