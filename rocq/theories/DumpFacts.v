(** Proofs about Dump.v: the writer (C58) and the layout of the page (C58). *)
From Verif Require Import Text GoAst Ast Utf8 Quote Parse Dump SpecSyntax SpecDump.
From Coq Require Import Arith Bool NArith Lia DecimalString.
Open Scope nat_scope.
Open Scope list_scope.

(** ** Any writer sees the same chunks *)
Section Feed.
  Context {W : Type} (write : W -> text -> W * option text) (w0 : W).
  Definition note : list text -> text -> list text * option text := fun l c => (l ++ [c], None).
  Definition agree (p : dprinter W) (q : dprinter (list text)) : Prop :=
    d_err q = None /\ (d_w p, d_err p) = feed write (d_w q) w0 /\
    d_indent p = d_indent q /\ d_last p = d_last q /\ d_line p = d_line q.

  Lemma feed_app l c w : feed write (l ++ [c]) w =
    match feed write l w with (w', None) => write w' c | (w', Some e) => (w', Some e) end.
  Proof.
    revert w. induction l as [|a l IH]; intros w; cbn; [now destruct (write w c) as [? [?|]]|].
    destruct (write w a) as [w' [e|]]; [reflexivity|apply IH].
  Qed.
  Lemma agree_out p q c : agree p q -> agree (d_out write c p) (d_out note c q).
  Proof.
    intros (E & F & I & L & N). unfold d_out at 2. rewrite E. cbn. unfold d_out.
    destruct (d_err p) as [e|] eqn:Ep.
    - repeat split; cbn; auto. rewrite feed_app, <- F, <- Ep. reflexivity.
    - destruct (write (d_w p) c) as [w' e] eqn:Ew. repeat split; cbn; auto. rewrite feed_app, <- F, <- Ew. reflexivity.
  Qed.
  Lemma agree_indentation k : forall p q, agree p q -> agree (d_indentation write k p) (d_indentation note k q).
  Proof. induction k; intros p q A; cbn; [exact A|]. apply IHk, agree_out, A. Qed.
  Lemma agree_write data : forall pend p q, agree p q -> agree (d_write write pend data p) (d_write note pend data q).
  Proof.
    induction data as [|b data IH]; intros pend p q A; cbn.
    - destruct pend; [exact A|apply agree_out, A].
    - destruct (ascii_dec b nl).
      + destruct (agree_out _ _ (pend ++ [nl]) A) as (E & F & I & L & N).
        apply IH. repeat split; cbn; auto.
      + pose proof (proj1 (proj2 (proj2 (proj2 A)))) as L0. rewrite L0.
        destruct (ascii_dec (d_last q) nl).
        * assert (A' : agree (d_indentation write (d_indent p) (d_out write (dec6 (d_line p) ++ str "  ") p))
                             (d_indentation note (d_indent q) (d_out note (dec6 (d_line q) ++ str "  ") q))).
          { destruct A as (E & F & I & L & N). rewrite I, N. apply agree_indentation, agree_out. now repeat split. }
          destruct A' as (E & F & I & L & N). apply IH. repeat split; cbn; auto.
        * destruct A as (E & F & I & L & N). apply IH. repeat split; cbn; auto.
  Qed.
  Lemma agree_acts acts : forall p q, agree p q -> agree (fold_left (d_act write) acts p) (fold_left (d_act note) acts q).
  Proof.
    induction acts as [|a acts IH]; intros p q A; cbn; [exact A|]. apply IH. destruct a; cbn.
    - apply agree_write, A.
    - destruct A as (E & F & I & L & N). repeat split; cbn; auto.
    - destruct A as (E & F & I & L & N). repeat split; cbn; auto.
  Qed.
  Lemma run_feed acts : d_run write acts w0 = feed write (fst (d_run note acts [])) w0.
  Proof.
    unfold d_run. cbv zeta. cbn [fst].
    match goal with |- (d_w (fold_left _ _ ?p), _) = feed _ (d_w (fold_left _ _ ?q)) _ => destruct (agree_acts acts p q) as (_ & F & _) end; [|exact F].
    repeat split.
  Qed.
End Feed.
Lemma feed_append l : forall w, feed (fun w (c : text) => (w ++ c, None)) l w = (w ++ List.concat l, None).
Proof. induction l as [|a l IH]; intros w; cbn; [now rewrite app_nil_r|]. now rewrite IH, app_assoc. Qed.

(** ** The page as a list of lines *)
Notation line := (nat * text)%type (only parsing).
Definition norm (k : nat) (c : text) : line := match c with [] => (0, []) | _ => (k, c) end.
Definition normed (l : line) : line := norm (fst l) (snd l).
Notation state := (list (nat * text) * (nat * text))%type (only parsing).
Definition step (k : nat) (st : state) (b : ascii) : state :=
  if ascii_dec b nl then (fst st ++ [snd st], (0, []))
  else match snd (snd st) with [] => (fst st, (k, [b])) | c => (fst st, (fst (snd st), c ++ [b])) end.
Definition steps (k : nat) (st : state) (t : text) : state := fold_left (step k) t st.
Definition act1 (s : nat * state) (a : act) : nat * state :=
  match a with
  | Pr t => (fst s, steps (fst s) (snd s) t)
  | In_ => (S (fst s), snd s)
  | Out_ => (pred (fst s), snd s)
  end.
Definition acts (l : list act) (s : nat * state) : nat * state := fold_left act1 l s.
Lemma acts_app a b s : acts (a ++ b) s = acts b (acts a s). Proof. apply fold_left_app. Qed.
Lemma acts_cons a l s : acts (a :: l) s = acts l (act1 s a). Proof. reflexivity. Qed.
Lemma steps_app k st a b : steps k st (a ++ b) = steps k (steps k st a) b. Proof. apply fold_left_app. Qed.

(** *** The printer computes it *)
Definition apnd : text -> text -> text * option text := fun w c => (w ++ c, None).
Definition partial (i : nat) (l : line) : text :=
  match snd l with [] => [] | c => align6 (dec i) ++ str "  " ++ List.concat (repeat (str ".  ") (fst l)) ++ c end.
Lemma page_line_partial i l : page_line i l = partial i l ++ [nl].
Proof. unfold page_line, partial. destruct l as [k [|b c]]; cbn [fst snd]; [reflexivity|]. rewrite <- !app_assoc. reflexivity. Qed.
Lemma page_app i a b : page i (a ++ b) = page i a ++ page (List.length a + i) b.
Proof.
  revert i. induction a as [|l a IH]; intros i; cbn; [reflexivity|]. rewrite IH, <- app_assoc. do 3 f_equal. lia.
Qed.

Definition shows (p : dprinter text) (pend : text) (st : state) : Prop :=
  d_err p = None /\ d_w p ++ pend = page 0 (fst st) ++ partial (List.length (fst st)) (snd st) /\
  d_line p = List.length (fst st) /\ (d_last p = nl <-> snd (snd st) = []) /\ (pend <> [] -> snd (snd st) <> []).

Lemma d_indentation_apnd k : forall p, d_err p = None ->
  d_indentation apnd k p = {| d_w := d_w p ++ List.concat (repeat (str ".  ") k); d_err := None; d_indent := d_indent p; d_last := d_last p; d_line := d_line p |}.
Proof.
  induction k; intros p E; cbn.
  - rewrite app_nil_r. destruct p; cbn in *; subst; reflexivity.
  - rewrite IHk; unfold d_out; rewrite E; cbn; [|reflexivity]. f_equal. rewrite <- app_assoc. reflexivity.
Qed.

Lemma shows_write data : forall pend p st, shows p pend st ->
  shows (d_write apnd pend data p) [] (steps (d_indent p) st data) /\ d_indent (d_write apnd pend data p) = d_indent p.
Proof.
  induction data as [|b data IH]; intros pend p st (E & O & N & L & P); cbn.
  - destruct pend as [|c pend]; [repeat split; try tauto; assumption|].
    unfold d_out. rewrite E. cbn. split; [|reflexivity]. split; [reflexivity|]. split; [cbn; rewrite app_nil_r; exact O|].
    split; [exact N|]. split; [exact L|]. congruence.
  - unfold step at 2. destruct (ascii_dec b nl) as [->|Hb].
    + unfold d_out. rewrite E. cbn. edestruct IH as [H1 H2]; [|split; [exact H1|exact H2]].
      split; [reflexivity|]. cbn. split; [|split; [|split; [tauto|congruence]]].
      * rewrite page_app. cbn. rewrite Nat.add_0_r, page_line_partial, !app_nil_r, !app_assoc. now rewrite O.
      * rewrite app_length. cbn. lia.
    + destruct (ascii_dec (d_last p) nl) as [HL|HL].
      * pose proof (proj1 L HL) as C. destruct pend as [|c pend]; [|exfalso; apply P; congruence].
        rewrite app_nil_r in O. destruct st as [done [k c]]. cbn in *. subst c.
        rewrite d_indentation_apnd; [|unfold d_out; rewrite E; reflexivity]. unfold d_out. rewrite E. cbn.
        edestruct IH as [H1 H2]; [|split; [exact H1|exact H2]]. split; [reflexivity|]. cbn. split; [|split; [|split; [|congruence]]].
        -- rewrite O. unfold partial. cbn. rewrite app_nil_r. unfold dec6, align6. rewrite N, <- !app_assoc. reflexivity.
        -- exact N.
        -- split; [congruence|discriminate].
      * destruct (snd (snd st)) as [|c0 c] eqn:C; [exfalso; apply HL; tauto|].
        edestruct IH as [H1 H2]; [|split; [exact H1|exact H2]]. split; [exact E|]. cbn. split; [|split; [|split; [|congruence]]].
        -- rewrite app_assoc, O. unfold partial, align6. rewrite C. cbn [snd fst]. rewrite <- !app_assoc. reflexivity.
        -- exact N.
        -- split; [congruence|]. destruct c; discriminate.
Qed.
Lemma shows_acts l : forall p k st, shows p [] st -> d_indent p = k ->
  shows (fold_left (d_act apnd) l p) [] (snd (acts l (k, st))).
Proof.
  induction l as [|a l IH]; intros p k st S I; [exact S|]. cbn [fold_left]. rewrite acts_cons. destruct a; cbn [act1 fst snd].
  - destruct (shows_write chunk [] p st S) as [S' I']. cbn [d_act]. rewrite <- I. apply IH; auto.
  - apply IH; cbn; [exact S|congruence].
  - apply IH; cbn; [exact S|congruence].
Qed.
Lemma run_page l st : acts l (0, ([], (0, []))) = (0, (st, (0, []))) -> d_run apnd l [] = (page 0 st, None).
Proof.
  intros A. unfold d_run. cbv zeta.
  match goal with |- (d_w (fold_left _ _ ?p), _) = _ => pose proof (shows_acts l p 0 ([], (0, []))) as H end.
  match type of H with context [snd (acts l ?x)] => change (acts l x) with (acts l (0, ([], (0, [])))) in H end.
  rewrite A in H. destruct H as (E & O & _); [now repeat split|reflexivity|]. rewrite E. cbn [snd fst] in O.
  unfold partial in O. cbn in O. rewrite !app_nil_r in O. now rewrite O.
Qed.

(** *** Documents *)
Definition fin (done ls : list line) : state := (done ++ removelast ls, last ls (0, [])).
Lemma fin_app done a x : fin done (a ++ [x]) = (done ++ a, x).
Proof. unfold fin. rewrite removelast_last, last_last. reflexivity. Qed.
Lemma fin_nl done ls k : ls <> [] -> step k (fin done ls) nl = (done ++ ls, (0, [])).
Proof. intros H. unfold step, fin. cbn. rewrite <- app_assoc, <- app_removelast_last by exact H. reflexivity. Qed.

Lemma split_nl_cons t : exists l ls, split_nl t = l :: ls.
Proof. destruct t as [|c t]; cbn; [eauto|]. destruct (ascii_dec c nl); [eauto|]. destruct (split_nl t); eauto. Qed.
Lemma split_nl_app c t : ~ In nl c -> exists l ls, split_nl t = l :: ls /\ split_nl (c ++ t) = (c ++ l) :: ls.
Proof.
  induction c as [|a c IH]; intros H; cbn.
  - destruct (split_nl_cons t) as (l & ls & E). eauto.
  - destruct IH as (l & ls & E & E'); [intros I; apply H; now right|]. destruct (ascii_dec a nl) as [->|]; [exfalso; apply H; now left|].
    rewrite E'. eauto.
Qed.
Lemma split_nl_one c : ~ In nl c -> split_nl c = [c].
Proof. intros H. destruct (split_nl_app c [] H) as (l & ls & E & E'). cbn in E. rewrite app_nil_r in E'. injection E as <- <-. now rewrite app_nil_r in E'. Qed.

Lemma norm_nil k : norm k [] = (0, []). Proof. reflexivity. Qed.
Lemma step_norm k done c b : b <> nl -> step k (done, norm k c) b = (done, norm k (c ++ [b])).
Proof. intros H. unfold step. destruct (ascii_dec b nl); [contradiction|]. destruct c; reflexivity. Qed.
Lemma steps_text k t : forall done c, ~ In nl c ->
  steps k (done, norm k c) t = fin done (map normed (map (pair k) (split_nl (c ++ t)))).
Proof.
  induction t as [|b t IH]; intros done c H.
  - rewrite app_nil_r, split_nl_one by exact H. cbn. unfold fin. cbn. now rewrite app_nil_r.
  - cbn [steps fold_left]. fold (steps k). destruct (ascii_dec b nl) as [->|Hb].
    + change (steps k (done ++ [norm k c], norm k []) t = fin done (map normed (map (pair k) (split_nl (c ++ nl :: t))))).
      rewrite IH by (intros []). destruct (split_nl_app c (nl :: t) H) as (l & ls & E & E'). cbn in E.
      injection E as <- <-. rewrite E', app_nil_r. cbn [map app]. destruct (split_nl_cons t) as (l & ls & Et). rewrite Et.
      unfold fin. cbn [map removelast last]. rewrite <- app_assoc. reflexivity.
    + change (steps k (step k (done, norm k c) b) t = fin done (map normed (map (pair k) (split_nl (c ++ b :: t))))).
      rewrite step_norm by exact Hb. rewrite IH.
      * rewrite <- app_assoc. reflexivity.
      * rewrite in_app_iff. intros [?|[?|[]]]; auto.
Qed.
Lemma steps_one k done c t : ~ In nl c -> ~ In nl t -> steps k (done, norm k c) t = (done, norm k (c ++ t)).
Proof.
  intros H H'. rewrite steps_text by exact H. rewrite split_nl_one; [|rewrite in_app_iff; tauto]. unfold fin. cbn. now rewrite app_nil_r.
Qed.

Definition renders (l : list act) (d : doc) : Prop :=
  forall k done c, ~ In nl c -> acts l (k, (done, norm k c)) = (k, fin done (map normed (doc_lines k c d))).
Lemma renders_leaf t : renders [Pr t] (Leaf t).
Proof. intros k done c H. cbn. now rewrite steps_text. Qed.

Lemma doc_lines_cons k c d : exists l ls, doc_lines k c d = l :: ls.
Proof. destruct d as [t|h [|i is]]; cbn; eauto. destruct (split_nl_cons (c ++ t)) as (l & ls & E). rewrite E. cbn. eauto. Qed.

(** An item: label, value, newline. *)
Lemma renders_item l d name rest k done : renders l d -> ~ In nl name ->
  acts (Pr (name ++ str ": ") :: l ++ Pr [nl] :: rest) (k, (done, (0, []))) =
  acts rest (k, (done ++ map normed (doc_lines k (name ++ str ": ") d), (0, []))).
Proof.
  intros R H. rewrite acts_cons. cbn [act1 fst snd]. change (0, [] : text) with (norm k []). rewrite steps_one; [|intros []|].
  2:{ rewrite in_app_iff. cbn. intuition discriminate. }
  cbn [app]. rewrite acts_app, R. 2:{ rewrite in_app_iff. cbn. intuition discriminate. }
  rewrite acts_cons. cbn [act1 fst snd steps fold_left]. rewrite fin_nl; [reflexivity|].
  destruct (doc_lines_cons k (name ++ str ": ") d) as (x & xs & ->). discriminate.
Qed.

(** *** Structs and slices *)
Definition field_ok (f : string * option (list act)) (g : string * option doc) : Prop :=
  fst f = fst g /\ ~ In nl (str (fst g)) /\
  match snd f, snd g with Some l, Some d => renders l d | None, None => True | _, _ => False end.
Definition kept (gs : list (string * option doc)) : list (text * doc) :=
  flat_map (fun f => match snd f with Some d => [(str (fst f), d)] | None => [] end) gs.
Definition item_lines (k : nat) (is : list (text * doc)) : list line :=
  flat_map (fun item => doc_lines k (fst item ++ str ": ") (snd item)) is.

Lemma renders_fields fs gs : Forall2 field_ok fs gs -> forall k done rest,
  acts (a_fields false fs ++ rest) (k, (done, (0, []))) = acts rest (k, (done ++ map normed (item_lines k (kept gs)), (0, []))).
Proof.
  induction 1 as [|[n f] [n' g] fs gs (E & N & O) F IH]; intros k done rest; cbn [a_fields app].
  - cbn. now rewrite app_nil_r.
  - cbn in E, O. subst n'. destruct f as [l|], g as [d|]; try contradiction.
    + cbn [app]. rewrite <- app_assoc. cbn [app]. rewrite (renders_item _ d) by assumption.
      rewrite IH. do 3 f_equal. cbn. rewrite map_app, app_assoc. reflexivity.
    + rewrite IH. reflexivity.
Qed.
Lemma renders_fields_first fs gs : Forall2 field_ok fs gs -> forall k st rest,
  acts (a_fields true fs ++ rest) (k, st) =
  match kept gs with
  | [] => acts rest (k, st)
  | is => acts rest (k, (fst st ++ [snd st] ++ map normed (item_lines k is), (0, [])))
  end.
Proof.
  induction 1 as [|[n f] [n' g] fs gs (E & N & O) F IH]; intros k st rest; cbn [a_fields app]; [reflexivity|].
  cbn in E, O. subst n'. destruct f as [l|], g as [d|]; try contradiction.
  - change ((kept ((n, Some d) :: gs))) with ((str n, d) :: kept gs). cbn [app].
    rewrite acts_cons. cbn [act1 fst snd steps fold_left]. change (step k st nl) with (fst st ++ [snd st], (0, @nil ascii)).
    rewrite <- app_assoc. cbn [app]. rewrite (renders_item _ d) by assumption. rewrite (renders_fields _ _ F).
    unfold item_lines. cbn [flat_map fst snd]. rewrite map_app, <- !app_assoc. reflexivity.
  - rewrite IH. reflexivity.
Qed.
Lemma renders_struct ty fs gs : ~ In nl (str ty) -> Forall2 field_ok fs gs -> renders (a_struct ty fs) (struct ty gs).
Proof.
  intros T F k done c H. unfold a_struct, struct. rewrite acts_cons. cbn [act1 fst snd].
  rewrite steps_one; [|exact H|cbn; intuition discriminate]. rewrite acts_cons. cbn [act1 fst snd].
  rewrite steps_one; [|rewrite in_app_iff; cbn; intuition discriminate|rewrite in_app_iff; cbn; intuition discriminate].
  rewrite acts_cons. cbn [act1 fst snd]. rewrite (renders_fields_first _ _ F). fold (kept gs). cbn [fst snd].
  destruct (kept gs) as [|i is] eqn:K.
  - cbn [acts fold_left act1 fst snd pred doc_lines map]. rewrite steps_one.
    + unfold fin. cbn [removelast last]. rewrite app_nil_r. unfold normed. cbn [fst snd].
      match goal with |- (_, (_, norm _ ?a)) = (_, (_, norm _ ?b)) => replace a with b; [reflexivity|] end.
      rewrite <- !app_assoc. reflexivity.
    + rewrite !in_app_iff. cbn. intuition discriminate.
    + cbn. intuition discriminate.
  - cbn [acts fold_left act1 fst snd pred]. change (0, [] : text) with (norm k []). rewrite steps_one; [|intros []|cbn; intuition discriminate].
    cbn [doc_lines]. fold (item_lines (S k) (i :: is)). rewrite app_comm_cons, map_app. cbn [map]. rewrite fin_app. f_equal. f_equal.
    cbn [app map]. unfold normed at 2. cbn [fst snd]. do 2 f_equal. rewrite <- !app_assoc. reflexivity.
Qed.

Lemma dec_nl n : ~ In nl (dec n).
Proof.
  unfold dec. generalize (Nat.to_uint n). intros u. enough (H : forall u, ~ In nl (str (NilEmpty.string_of_uint u))).
  { destruct u; try exact (H _). cbn. intuition discriminate. }
  clear. induction u; cbn; intuition discriminate.
Qed.
Lemma renders_elems ls ds : Forall2 renders ls ds -> forall i k done rest,
  acts (a_elems i ls ++ rest) (k, (done, (0, []))) = acts rest (k, (done ++ map normed (item_lines k (indexed i ds)), (0, []))).
Proof.
  induction 1 as [|l d ls ds R F IH]; intros i k done rest; cbn [a_elems app].
  - cbn. now rewrite app_nil_r.
  - rewrite <- app_assoc. cbn [app]. rewrite (renders_item _ d) by (assumption || apply dec_nl). rewrite IH. do 3 f_equal.
    cbn. rewrite map_app, app_assoc. reflexivity.
Qed.
Lemma Forall2_len {A B} (R : A -> B -> Prop) l m : Forall2 R l m -> List.length l = List.length m.
Proof. induction 1; cbn; congruence. Qed.
Lemma renders_slice ty ls ds : ~ In nl (str ty) -> Forall2 renders ls ds -> renders (a_slice ty ls) (slice ty ds).
Proof.
  intros T F. destruct F as [|l d ls ds R F]; [apply renders_leaf|]. pose proof (Forall2_len _ _ _ F) as Len.
  intros k done c H. unfold a_slice, slice. rewrite acts_cons. cbn [act1 fst snd].
  rewrite steps_one; [|exact H|].
  2:{ rewrite !in_app_iff. pose proof (dec_nl (List.length (l :: ls))). cbn in *. intuition discriminate. }
  rewrite acts_cons. cbn [act1 fst snd]. rewrite acts_cons. cbn [act1 fst snd steps fold_left]. 
  match goal with |- context [step ?k ?st nl] => change (step k st nl) with (fst st ++ [snd st], (0, @nil ascii)) end. cbn [fst snd].
  rewrite (renders_elems _ _ (Forall2_cons l d R F)). cbn [acts fold_left act1 fst snd pred].
  change (0, [] : text) with (norm k []). rewrite steps_one; [|intros []|cbn; intuition discriminate].
  change (indexed 0 (d :: ds)) with ((dec 0, d) :: indexed 1 ds). cbn [doc_lines]. fold (item_lines (S k) ((dec 0, d) :: indexed 1 ds)). rewrite app_comm_cons, map_app. cbn [map]. rewrite fin_app. f_equal. f_equal.
  rewrite <- app_assoc. cbn [app map]. f_equal. f_equal. unfold normed. cbn [fst snd]. f_equal. cbn [List.length]. rewrite Len. rewrite <- !app_assoc. reflexivity.
Qed.

Definition field_renders (o : option (list act)) (d : option doc) : Prop :=
  match o, d with Some l, Some d => renders l d | None, None => True | _, _ => False end.
Lemma renders_f_slice ty ls ds : ~ In nl (str ty) -> Forall2 renders ls ds -> field_renders (f_slice ty ls) (some_slice ty ds).
Proof. intros T F. pose proof (renders_slice ty ls ds T F). destruct F; [exact I|exact H]. Qed.
Lemma field n o d : ~ In nl (str n) -> field_renders o d -> field_ok (n, o) (n, d).
Proof. intros H R. split; [reflexivity|]. split; [exact H|exact R]. Qed.
Lemma leaf_renders t : field_renders (Some [Pr t]) (Some (Leaf t)).
Proof. apply renders_leaf. Qed.

Ltac no_nl := cbn; intuition discriminate.
Ltac fields := apply renders_struct; [no_nl|repeat (apply Forall2_cons || apply Forall2_nil); (apply field; [no_nl|])].

(** *** Nodes *)
Section Nodes.
  Variables (wide_print : N -> bool) (other : text -> list act).
  Lemma gexpr_renders e : supported e -> renders (a_gexpr wide_print other e) (gexpr_doc wide_print e).
  Proof.
    induction e using gexpr_ind'; intros P; cbn [a_gexpr gexpr_doc supported] in *.
    - unfold ident_doc. fields; apply leaf_renders.
    - fields; apply leaf_renders.
    - specialize (IHe P). fields; try apply leaf_renders. destruct e; try exact I; exact IHe.
    - specialize (IHe P). fields; try apply leaf_renders. destruct e; try exact I; exact IHe.
    - destruct P as [P1 P2]. specialize (IHe1 P1). specialize (IHe2 P2). fields; try apply leaf_renders.
      + destruct e1; try exact I; exact IHe1.
      + destruct e2; try exact I; exact IHe2.
    - destruct P as [P1 P2]. specialize (IHe P1). fields; try apply leaf_renders.
      + destruct e; try exact I; exact IHe.
      + apply renders_f_slice; [no_nl|]. clear -H P2. induction H as [|a l Ha H IH]; [constructor|]. cbn in *. constructor; [apply Ha|apply IH]; tauto.
    - specialize (IHe P). fields; try apply leaf_renders. destruct e; try exact I; exact IHe.
    - specialize (IHe P). fields; try apply leaf_renders.
      + destruct e; try exact I; exact IHe.
      + cbn [field_renders]. unfold ident_doc. fields; apply leaf_renders.
    - destruct P.
    - apply renders_leaf.
  Qed.
  Lemma expr_renders e : supported e -> renders (a_expr wide_print other e) (expr_doc wide_print e).
  Proof. intros P. pose proof (gexpr_renders e P). unfold a_expr, expr_doc. fields. destruct e; try exact I; exact H. Qed.
  Lemma opt_renders o : plain_opt o -> field_renders (f_expr wide_print other o) (option_map (expr_doc wide_print) o).
  Proof. destruct o; [exact (expr_renders g)|]. intros _. exact I. Qed.
  Lemma map_renders {A} (f : A -> list act) (g : A -> doc) l : (forall a, renders (f a) (g a)) -> Forall2 renders (map f l) (map g l).
  Proof. intros H. induction l; cbn; constructor; auto. Qed.
  Lemma part_renders p : renders (a_part p) (part_doc p).
  Proof. destruct p; try apply renders_leaf. apply renders_slice; [no_nl|]. apply map_renders. intros. apply renders_leaf. Qed.
  Lemma op_renders o : renders (a_op o) (op_doc o).
  Proof. destruct o; try apply renders_leaf. apply renders_slice; [no_nl|]. apply map_renders. apply part_renders. Qed.
  Lemma value_renders v : plain_value v -> renders (a_value wide_print other v) (value_doc wide_print v).
  Proof.
    induction v using value_ind'; intros P; cbn [a_value value_doc plain_value] in *.
    - destruct P as (P1 & P2 & P3). fields; try apply leaf_renders.
      + pose proof (op_renders (s_op s)). destruct (s_op s); try exact I; exact H0.
      + apply opt_renders, P1.
      + apply opt_renders, P2.
      + apply renders_f_slice; [no_nl|]. clear -H P3. induction H as [|a l Ha H IH]; [constructor|]. cbn in *. constructor; [apply Ha|apply IH]; tauto.
    - apply expr_renders, P.
    - apply renders_leaf.
    - apply renders_leaf.
  Qed.
  Lemma rule_renders r : plain_rule r -> renders (a_rule wide_print other r) (rule_doc wide_print r).
  Proof.
    intros (P1 & P2 & P3). pose proof (value_renders _ P1) as V1. pose proof (value_renders _ P3) as V3. unfold a_rule, rule_doc, f_value.
    fields; try apply leaf_renders.
    - destruct (r_match r); try exact I; exact V1.
    - apply opt_renders, P2.
    - destruct (r_result r); try exact I; exact V3.
  Qed.
  Lemma file_renders f : Forall plain_rule (f_rules f) -> renders (a_file wide_print other f) (file_doc wide_print f).
  Proof.
    intros P. unfold a_file, file_doc. fields. apply renders_f_slice; [no_nl|].
    induction P; cbn; constructor; [apply rule_renders|]; assumption.
  Qed.

  Lemma renders_run l d st : renders l d -> st = map normed (doc_lines 0 [] d) -> acts (l ++ [Pr [nl]]) (0, ([], (0, []))) = (0, (st, (0, []))).
  Proof.
    intros R ->. rewrite acts_app. change (0, @nil ascii) with (norm 0 []) at 1. rewrite R by (intros []).
    cbn [acts fold_left act1 fst snd steps]. rewrite fin_nl; [reflexivity|].
    destruct (doc_lines_cons 0 [] d) as (x & xs & ->). discriminate.
  Qed.
  Lemma page_normed ls : forall i, page i (map normed ls) = page i ls.
  Proof. induction ls as [|[k [|b c]] ls IH]; intros i; cbn [map page]; try rewrite IH; reflexivity. Qed.

  Lemma Dump_page n : plain_node n -> Dump wide_print other n = Ok (dump_page wide_print n).
  Proof.
    intros P. unfold Dump, Fprint. fold apnd.
    assert (H : acts (a_node wide_print other n) (0, ([], (0, []))) = (0, (map normed (doc_lines 0 [] (node_doc wide_print n)), (0, [])))).
    { destruct n; cbn [a_node node_doc plain_node] in *.
      - apply (renders_run _ _ _ (file_renders _ P) eq_refl).
      - apply (renders_run _ _ _ (rule_renders _ P) eq_refl).
      - apply (renders_run _ _ _ (value_renders _ P) eq_refl).
      - apply (renders_run _ _ _ (expr_renders _ P) eq_refl).
      - apply (renders_run _ _ _ (renders_leaf x) eq_refl).
      - apply (renders_run _ _ _ (renders_leaf c) eq_refl).
      - apply (renders_run _ _ _ (op_renders (OpcodeParts ps)) eq_refl).
      - apply (renders_run _ _ _ (part_renders (PAlt alts)) eq_refl).
      - reflexivity. }
    rewrite (run_page _ _ H), page_normed. reflexivity.
  Qed.
End Nodes.

Lemma Dump_feed wide_print other n : exists chunks, Dump wide_print other n = Ok (List.concat chunks) /\
  forall W (write : W -> text -> W * option text) w, Fprint write wide_print other w n = feed write chunks w.
Proof.
  exists (fst (d_run note (a_node wide_print other n) [])). split.
  - unfold Dump, Fprint. rewrite run_feed, feed_append. reflexivity.
  - intros. apply run_feed.
Qed.
