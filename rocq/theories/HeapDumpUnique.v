(** More proofs about HeapDump.v: there is one document for a pointer, and without sharing
    it is that of Dump.v (C63). *)
From Verif Require Import Text GoAst Ast Utf8 Quote Parse Dump SpecSyntax SpecDump DumpFacts Heap SpecHeap HeapDump SpecShare HeapDumpFacts.
From Coq Require Import Arith Bool NArith Lia.
Open Scope nat_scope.
Open Scope list_scope.

Lemma app_len_inj {A} (a a' x x' : list A) : a ++ x = a' ++ x' -> List.length a = List.length a' -> a = a' /\ x = x'.
Proof.
  revert a'. induction a as [|y a IH]; intros [|y' a'] E L; try discriminate; [split; [reflexivity|exact E]|].
  cbn in E. injection E as -> E. injection L as L. destruct (IH a' E L) as [-> ->]. split; reflexivity.
Qed.
Lemma slice_at_det g sl ws ws' : slice_at g sl ws -> slice_at g sl ws' -> ws = ws'.
Proof.
  intros [L A] [L' A']. destruct A as [->|(a & b & G & La)].
  - destruct ws'; [reflexivity|]. cbn in L'. rewrite L in L'. discriminate.
  - destruct A' as [->|(a' & b' & G' & La')].
    + destruct ws; [reflexivity|]. cbn in L. rewrite L in L'. discriminate.
    + rewrite G in G'. injection G' as E. apply app_len_inj in E; [|congruence]. destruct E as [_ E]. apply app_len_inj in E; [|congruence]. apply E.
Qed.

Section WordInd.
  Variables (wide_print : N -> bool) (g : nat -> option cell).
  Notation odoc_of := (word_odoc wide_print g).
  Variable P : word -> odoc -> Prop.
  Hypothesis Hnil : forall w, In w [WNil; WSExpr None; WExpr None; WRule None] -> P w (OLeaf (str "nil")).
  Hypothesis Hvar : forall x, P (WVar x) (OLeaf x).
  Hypothesis Hexpr : forall p d, expr_odoc wide_print g p d -> P (WExpr (Some p)) d.
  Hypothesis Hagain : forall p, P (WSExpr (Some p)) (ORef p).
  Hypothesis Hsexpr : forall p c o ai a ws args,
      g p = Some (CSExpr c) -> op_odoc g (h_op c) o -> ptr_odoc wide_print g (h_auxint c) ai -> ptr_odoc wide_print g (h_aux c) a ->
      slice_at g (h_args c) ws -> Forall2 odoc_of ws args -> Forall2 P ws args ->
      P (WSExpr (Some p)) (ostruct p "ast.SExpr" [("Binding", Some (OLeaf (h_binding c))); ("Op", o);
        ("Type", Some (OLeaf (h_type c))); ("AuxInt", ai); ("Aux", a); ("Args", oslice "[]ast.Value" args);
        ("Ellipsis", scalar (bool_doc (h_ellipsis c))); ("Trailing", scalar (bool_doc (h_trailing c)))]%string).
  Hypothesis Hragain : forall p, P (WRule (Some p)) (ORef p).
  Hypothesis Hrule : forall p c m co r,
      g p = Some (CRule c) -> field_odoc P (h_match c) m -> ptr_odoc wide_print g (h_cond c) co -> field_odoc P (h_result c) r ->
      P (WRule (Some p)) (ostruct p "ast.Rule" [("Match", m); ("Condition", co);
        ("Block", scalar (string_doc wide_print (h_block c))); ("Result", r)]%string).
  Fixpoint word_odoc_ind' w d (H : odoc_of w d) {struct H} : P w d.
  Proof.
    destruct H as [w I|x|p d E|p|p c o ai a ws args G Ho H1 H2 Sl F|p|p c m co r G Hm Hc Hr].
    - apply Hnil, I.
    - apply Hvar.
    - apply Hexpr, E.
    - apply Hagain.
    - apply (Hsexpr p c o ai a ws args G Ho H1 H2 Sl F). clear Sl. induction F as [|w d ws args Hd F IH]; [constructor|]. constructor; [apply word_odoc_ind', Hd|exact IH].
    - apply Hragain.
    - apply (Hrule p c m co r G); [|exact Hc|].
      + destruct Hm as [|w d Nw Hd]; [constructor|]. constructor; [exact Nw|apply word_odoc_ind', Hd].
      + destruct Hr as [|w d Nw Hd]; [constructor|]. constructor; [exact Nw|apply word_odoc_ind', Hd].
  Qed.
End WordInd.

Definition evo (o : option odoc) : list event := match o with Some d => events d | None => [] end.
Definition uniq (R : odoc -> Prop) (d : odoc) : Prop :=
  forall d' seen, R d' -> in_order seen (events d) -> in_order seen (events d') -> d = d'.
Definition uniqo (R : option odoc -> Prop) (o : option odoc) : Prop :=
  forall o' seen, R o' -> in_order seen (evo o) -> in_order seen (evo o') -> o = o'.
Lemma fields_unique Rs os : Forall2 uniqo Rs os -> forall names os' seen, List.length names = List.length os -> Forall2 (fun (R : option odoc -> Prop) o => R o) Rs os' ->
  in_order seen (events_items (keptc (combine names os))) -> in_order seen (events_items (keptc (combine names os'))) -> os = os'.
Proof.
  assert (E : forall n o (l : list (string * option odoc)), events_items (keptc ((n, o) :: l)) = evo o ++ events_items (keptc l)) by (intros n [d|] l; reflexivity).
  induction 1 as [|R o Rs os U F IH]; intros names os' seen L F' O O'; inversion F' as [|? o' ? os'' Ho' F'']; subst; [reflexivity|].
  destruct names as [|n names]; [discriminate|]. cbn [combine] in O, O'. rewrite E in O, O'. apply in_order_app in O, O'.
  assert (o = o') by (eapply U; [exact Ho'|apply O|apply O']). subst o'. f_equal. eapply IH; [injection L as L; exact L|exact F''|apply O|apply O'].
Qed.
Lemma list_unique Rs ds : Forall2 uniq Rs ds -> forall ds' seen, Forall2 (fun (R : odoc -> Prop) o => R o) Rs ds' ->
  in_order seen (flat_map events ds) -> in_order seen (flat_map events ds') -> ds = ds'.
Proof.
  induction 1 as [|R d Rs ds U F IH]; intros ds' seen F' O O'; inversion F' as [|? d' ? ds'' Hd' F'']; subst; [reflexivity|].
  cbn [flat_map] in O, O'. apply in_order_app in O, O'. assert (d = d') by (eapply U; [exact Hd'|apply O|apply O']). subst d'. f_equal. eapply IH; [exact F''|apply O|apply O'].
Qed.
Lemma oslice_events ty ds : evo (oslice ty ds) = flat_map events ds.
Proof.
  destruct ds as [|d ds]; [reflexivity|]. unfold oslice, evo. cbn [events app]. generalize (d :: ds) as l, 0. induction l as [|x l IH]; intros i; [reflexivity|]. cbn. now rewrite IH.
Qed.
Lemma oslice_inj ty ds ds' : oslice ty ds = oslice ty ds' -> List.length ds = List.length ds' -> ds = ds'.
Proof.
  destruct ds as [|d ds], ds' as [|d' ds']; try discriminate; [reflexivity|]. unfold oslice. intros E _. injection E as _ E1 E. f_equal; [exact E1|].
  revert E. generalize 1. clear. revert ds'. induction ds as [|d ds IH]; intros ds' i E; destruct ds'; try discriminate; [reflexivity|].
  cbn [oindexed] in E. injection E as E1 E. f_equal; [exact E1|]. eapply IH, E.
Qed.
Lemma struct_unique p ty names Rs os os' seen : Forall2 uniqo Rs os -> Forall2 (fun (R : option odoc -> Prop) o => R o) Rs os' -> List.length names = List.length os ->
  in_order seen (events (OBlock (Some p) ty (keptc (combine names os)))) -> in_order seen (events (OBlock (Some p) ty (keptc (combine names os')))) -> os = os'.
Proof.
  intros U F L O O'. cbn [events app in_order] in O, O'. eapply fields_unique; [exact U|exact L|exact F|apply O|apply O'].
Qed.
Lemma uniqo_eq o : uniqo (eq o) o.
Proof. intros o' seen E _ _. exact E. Qed.

Section Unique.
  Variables (wide_print : N -> bool) (g : nat -> option cell).
  Notation odoc_of := (word_odoc wide_print g).
  Lemma ref_block seen p h is : in_order seen (events (ORef p)) -> in_order seen (events (OBlock (Some p) h is)) -> False.
  Proof. cbn. tauto. Qed.
  Lemma expr_unique p d : expr_odoc wide_print g p d -> uniq (expr_odoc wide_print g p) d.
  Proof.
    intros H d' seen H' O O'. destruct H as [|e G], H' as [|e' G']; [reflexivity| | |].
    - exfalso. exact (ref_block _ _ _ _ O O').
    - exfalso. exact (ref_block _ _ _ _ O' O).
    - rewrite G in G'. injection G' as <-. reflexivity.
  Qed.
  Lemma ptr_unique p o : ptr_odoc wide_print g p o -> uniqo (ptr_odoc wide_print g p) o.
  Proof.
    intros H o' seen H' O O'. destruct H as [|p d H]; inversion H'; subst; [reflexivity|]. f_equal. eapply expr_unique; eassumption.
  Qed.
  Lemma op_unique x o : op_odoc g x o -> uniqo (op_odoc g x) o.
  Proof. intros H o' seen H' _ _. destruct H as [c|a ps G|]; inversion H'; subst; try reflexivity. congruence. Qed.
  Lemma word_unique w d : odoc_of w d -> uniq (odoc_of w) d.
  Proof.
    intros H. induction H as [w I|x|p d E|p|p c o ai a ws args G Ho H1 H2 Sl F IH|p|p c m co r G Hm Hc Hr] using word_odoc_ind'; intros d' seen H' O O'.
    - cbn in I. destruct I as [<-|[<-|[<-|[<-|[]]]]]; inversion H'; reflexivity.
    - inversion H'; [cbn in *; intuition discriminate|reflexivity].
    - inversion H' as [w I| |p' d'' E'| | | |]; subst; [cbn in I; intuition discriminate|]. eapply expr_unique; eassumption.
    - inversion H' as [w I| | | |p' c' o' ai' a' ws' args'| |]; subst; [cbn in I; intuition discriminate|reflexivity|]. exfalso. exact (ref_block _ _ _ _ O O').
    - inversion H' as [w I| | | |p' c' o' ai' a' ws' args' G' Ho' H1' H2' Sl' F'| |]; subst; [cbn in I; intuition discriminate|exfalso; exact (ref_block _ _ _ _ O' O)|].
      rewrite G in G'. injection G' as <-. assert (ws = ws') by (eapply slice_at_det; eassumption). subst ws'.
      set (names := ["Binding"; "Op"; "Type"; "AuxInt"; "Aux"; "Args"; "Ellipsis"; "Trailing"]%string).
      set (Rs := [eq (Some (OLeaf (h_binding c))); op_odoc g (h_op c); eq (Some (OLeaf (h_type c)));
            ptr_odoc wide_print g (h_auxint c); ptr_odoc wide_print g (h_aux c); fun o => exists args, Forall2 odoc_of ws args /\ o = oslice "[]ast.Value" args;
            eq (scalar (bool_doc (h_ellipsis c))); eq (scalar (bool_doc (h_trailing c)))]).
      assert (E := struct_unique p (str "*" ++ str "ast.SExpr") names Rs
        [Some (OLeaf (h_binding c)); o; Some (OLeaf (h_type c)); ai; a; oslice "[]ast.Value" args; scalar (bool_doc (h_ellipsis c)); scalar (bool_doc (h_trailing c))]
        [Some (OLeaf (h_binding c)); o'; Some (OLeaf (h_type c)); ai'; a'; oslice "[]ast.Value" args'; scalar (bool_doc (h_ellipsis c)); scalar (bool_doc (h_trailing c))] seen).
      match type of E with ?A -> ?B -> ?C -> ?D -> ?D' -> ?Q => assert (Hq : Q) end.
      { apply E; [| |reflexivity|exact O|exact O'].
        - unfold Rs. repeat (apply Forall2_cons || apply Forall2_nil); try apply uniqo_eq.
          + apply op_unique, Ho.
          + apply ptr_unique, H1.
          + apply ptr_unique, H2.
          + intros os seen' (args'' & F'' & ->) Oa Oa'. rewrite oslice_events in Oa, Oa'. f_equal.
            apply (list_unique (map odoc_of ws) args) with (seen := seen'); [|clear -F''; induction F''; constructor; assumption|exact Oa|exact Oa'].
            clear -IH. induction IH; constructor; assumption.
        - unfold Rs. repeat (apply Forall2_cons || apply Forall2_nil); try reflexivity; try assumption. eauto. }
      injection Hq as -> -> -> Ha. rewrite Ha. reflexivity.
    - inversion H' as [w I| | | | |p'|p' c' m' co' r']; subst; [cbn in I; intuition discriminate|reflexivity|]. exfalso. exact (ref_block _ _ _ _ O O').
    - inversion H' as [w I| | | | |p'|p' c' m' co' r' G' Hm' Hc' Hr']; subst; [cbn in I; intuition discriminate|exfalso; exact (ref_block _ _ _ _ O' O)|].
      rewrite G in G'. injection G' as <-.
      set (names := ["Match"; "Condition"; "Block"; "Result"]%string).
      set (Rs := [field_odoc odoc_of (h_match c); ptr_odoc wide_print g (h_cond c); eq (scalar (string_doc wide_print (h_block c))); field_odoc odoc_of (h_result c)]).
      assert (U : forall w o, field_odoc (fun w d => uniq (odoc_of w) d) w o -> uniqo (field_odoc odoc_of w) o).
      { intros w o X o' seen' Y A B. destruct X as [|w d Nw X]; inversion Y; subst; try reflexivity; try congruence. f_equal. eapply X; eassumption. }
      assert (E := struct_unique p (str "*" ++ str "ast.Rule") names Rs [m; co; scalar (string_doc wide_print (h_block c)); r] [m'; co'; scalar (string_doc wide_print (h_block c)); r'] seen).
      match type of E with ?A -> ?B -> ?C -> ?D -> ?D' -> ?Q => assert (Hq : Q) end.
      { apply E; [| |reflexivity|exact O|exact O'].
        - unfold Rs. repeat (apply Forall2_cons || apply Forall2_nil); try apply uniqo_eq; [apply U, Hm|apply ptr_unique, Hc|apply U, Hr].
        - unfold Rs. repeat (apply Forall2_cons || apply Forall2_nil); try reflexivity; try assumption. }
      injection Hq as -> -> ->. reflexivity.
  Qed.
  Lemma node_unique n d d' : node_odoc wide_print g n d -> node_odoc wide_print g n d' -> first_met (events d) -> first_met (events d') -> d = d'.
  Proof.
    intros H H' F F'. apply first_in_order in F, F'. destruct n as [p|w]; [|exact (word_unique w d H d' [] H' F F')].
    destruct H as [|p sl ws rules G Sl Fw]; inversion H' as [|p' sl' ws' rules' G' Sl' Fw']; subst; [reflexivity|].
    rewrite G in G'. injection G' as <-. assert (ws = ws') by (eapply slice_at_det; eassumption). subst ws'.
    cbn [ostruct events app in_order] in F, F'. assert (rules = rules') as ->; [|reflexivity].
    apply (list_unique (map odoc_of ws) rules) with (seen := [p]).
    - clear -Fw. induction Fw; constructor; [apply word_unique; assumption|assumption].
    - clear -Fw'. induction Fw'; constructor; assumption.
    - rewrite <- (oslice_events "[]*ast.Rule"). destruct rules; [exact I|]. destruct F as [_ F]. unfold oslice, evo in *. cbn [flat_map snd fst app] in F. rewrite !app_nil_r in F. exact F.
    - rewrite <- (oslice_events "[]*ast.Rule"). destruct rules'; [exact I|]. destruct F' as [_ F']. unfold oslice, evo in *. cbn [flat_map snd fst app] in F'. rewrite !app_nil_r in F'. exact F'.
  Qed.
End Unique.

(** ** Trees in the heap *)
Section Trees.
  Variables (wide_print : N -> bool) (g : nat -> option cell).
  Definition tree_reached (a : nat) : Prop :=
    (exists v, value_at g (WSExpr (Some a)) v /\ plain_value v) \/ (exists e, g a = Some (CExpr e) /\ supported e) \/
    (exists r, rule_at g (WRule (Some a)) r /\ plain_rule r) \/ (exists f, file_at g a f /\ Forall plain_rule (f_rules f)).
  Lemma expr_at_ok p o : expr_at g p o -> plain_opt o -> ok_expr g tree_reached p.
  Proof. destruct p as [a|], o as [e|]; cbn; try tauto. intros G S. split; [right; left; eauto|eauto]. Qed.
  Lemma value_at_ok w v : value_at g w v -> plain_value v -> ok_value g tree_reached w.
  Proof.
    intros H P. destruct H as [p c s ws G| | |] eqn:E; cbn; try exact I.
    - split; [left; eauto|eauto].
    - split; [right; left; eauto|eauto].
  Qed.
  Lemma rule_at_ok w r : rule_at g w r -> plain_rule r -> ok_rule g tree_reached w.
  Proof. intros H P. pose proof H as (p & c & -> & G & _). split; [right; right; left; eauto|eauto]. Qed.
  Lemma trees_closed : closed g tree_reached.
  Proof.
    intros a c R G. destruct R as [(v & V & P)|[(e & Ge & P)|[(r & R & P)|(f & F & P)]]].
    - inversion V as [p c' s ws G' Hb Ho Ht Hi Ha Sl F2 He Hr| | |]; subst. rewrite G in G'. injection G' as ->. cbn [plain_value] in P. destruct P as (P1 & P2 & P3).
      cbn [ok_cell]. split; [exact (expr_at_ok _ _ Hi P1)|]. split; [exact (expr_at_ok _ _ Ha P2)|]. split.
      + destruct (h_op c') as [x|x|], (s_op s); cbn in Ho; try exact I; try contradiction. eauto.
      + exists ws. split; [exact Sl|]. clear -F2 P3. induction F2 as [|w v ws vs Hv F2 IH]; [constructor|]. cbn in P3. constructor; [eapply value_at_ok; [exact Hv|]|apply IH]; tauto.
    - rewrite G in Ge. injection Ge as ->. exact I.
    - destruct R as (p & c' & E & G' & Hm & Hc & Hb & Hr). injection E as <-. rewrite G in G'. injection G' as ->. destruct P as (P1 & P2 & P3).
      split; [exact (value_at_ok _ _ Hm P1)|]. split; [exact (expr_at_ok _ _ Hc P2)|exact (value_at_ok _ _ Hr P3)].
    - destruct F as (sl & ws & G' & Sl & F2). rewrite G in G'. injection G' as ->. exists ws. split; [exact Sl|].
      clear -F2 P. induction F2 as [|w r ws rs Hr F2 IH]; [constructor|]. inversion P; subst. constructor; [eapply rule_at_ok; eassumption|auto].
  Qed.

  (** Nothing met twice. *)
  Definition no_refs (d : odoc) : Prop := forall a, ~ In (There a) (events d).
  Variable at_ : nat -> nat.
  Lemma spelled_struct p ty fields : spelled at_ (ostruct p ty fields) = struct ty (map (fun f => (fst f, option_map (spelled at_) (snd f))) fields).
  Proof. unfold ostruct, struct. cbn [spelled]. f_equal. induction fields as [|[n [d|]] fs IH]; [reflexivity| |exact IH]. cbn. now rewrite IH. Qed.
  Lemma spelled_slice ty ds : option_map (spelled at_) (oslice ty ds) = some_slice ty (map (spelled at_) ds).
  Proof.
    destruct ds as [|d ds]; [reflexivity|]. unfold oslice, some_slice, SpecDump.slice. cbn [map option_map spelled]. f_equal. rewrite <- map_cons, map_length. f_equal.
    generalize (d :: ds) as l, 0. induction l as [|x l IH]; intros i; [reflexivity|]. cbn. now rewrite IH.
  Qed.
  Lemma struct_no_refs p ty fields n d : no_refs (ostruct p ty fields) -> In (n, Some d) fields -> no_refs d.
  Proof.
    intros H I a A. apply (H a). unfold ostruct. cbn [events]. apply in_or_app. right. apply in_flat_map. exists (str n, d). split; [|exact A].
    apply in_flat_map. exists (n, Some d). split; [exact I|now left].
  Qed.
  Lemma slice_no_refs ty ds d x : oslice ty ds = Some d -> no_refs d -> In x ds -> no_refs x.
  Proof. intros E H I a A. apply (H a). assert (Ev := oslice_events ty ds). rewrite E in Ev. cbn [evo] in Ev. rewrite Ev. apply in_flat_map. eauto. Qed.
  Lemma expr_spelled p d e : expr_odoc wide_print g p d -> no_refs d -> g p = Some (CExpr e) -> spelled at_ d = expr_doc wide_print e.
  Proof.
    intros H Nr G. destruct H as [|e' G']; [exfalso; apply (Nr p); now left|]. rewrite G in G'. injection G' as <-. rewrite spelled_struct. unfold expr_doc. cbn [map fst snd].
    do 3 f_equal. destruct e; cbn [scalar option_map]; rewrite ?plain_spelled; reflexivity.
  Qed.
  Lemma ptr_spelled p o x : ptr_odoc wide_print g p o -> (forall d, o = Some d -> no_refs d) -> expr_at g p x -> option_map (spelled at_) o = option_map (expr_doc wide_print) x.
  Proof.
    intros H Nr E. destruct H as [|p d H], x as [e|]; cbn in E; try contradiction; [reflexivity|]. cbn. f_equal. eapply expr_spelled; eauto.
  Qed.
  Lemma op_spelled x o y : op_odoc g x o -> op_at g x y -> option_map (spelled at_) o = match y with NilOp => None | o => Some (op_doc o) end.
  Proof.
    intros H E. destruct H as [c|a ps G|], y; cbn in E; try contradiction; [subst; reflexivity| |reflexivity]. rewrite G in E. injection E as ->.
    cbn [scalar option_map]. now rewrite plain_spelled.
  Qed.
  Lemma word_spelled w d : word_odoc wide_print g w d -> no_refs d ->
    (forall v, value_at g w v -> spelled at_ d = value_doc wide_print v) /\ (forall r, rule_at g w r -> spelled at_ d = rule_doc wide_print r).
  Proof.
    intros H. induction H as [w I|x|p d E|p|p c o ai a ws args G Ho H1 H2 Sl F IH|p|p c m co r G Hm Hc Hr] using word_odoc_ind'; intros Nr;
      (split; [intros v V|intros r' R]).
    - cbn in I. destruct I as [<-|[<-|[<-|[<-|[]]]]]; inversion V; reflexivity.
    - destruct R as (p & c & -> & _). cbn in I. intuition discriminate.
    - inversion V; reflexivity.
    - destruct R as (p & c & E & _). discriminate.
    - inversion V as [|p' e G| |]; subst. eapply expr_spelled; eassumption.
    - destruct R as (p' & c & E' & _). discriminate.
    - exfalso. apply (Nr p). now left.
    - destruct R as (p' & c & E & _). discriminate.
    - inversion V as [p' c' s ws' G' Hb Ho' Ht Hi Ha Sl' F2 He Hre| | |]; subst. rewrite G in G'. injection G' as <-.
      assert (ws = ws') by (eapply slice_at_det; eassumption). subst ws'. rewrite spelled_struct. cbn [value_doc map fst snd].
      rewrite (op_spelled _ _ _ Ho Ho'), (ptr_spelled _ _ (s_auxint s) H1), (ptr_spelled _ _ (s_aux s) H2), spelled_slice; try assumption.
      + rewrite <- Hb, <- Ht, <- He, <- Hre.
        assert (Na : forall x, In x args -> no_refs x).
        { intros x Ix. destruct (oslice "[]ast.Value" args) as [sd|] eqn:Es; [|destruct args; [destruct Ix|discriminate]].
          eapply slice_no_refs; [exact Es| |exact Ix]. eapply (struct_no_refs _ _ _ "Args"%string _ Nr). cbn. tauto. }
        assert (Em : map (spelled at_) args = map (value_doc wide_print) (s_args s)); [|rewrite Em; clear; destruct (s_op s); reflexivity].
        clear -IH F2 Na. revert F2. generalize (s_args s) as vs. induction IH as [|w d ws args Hd IH IHl]; intros vs F2; inversion F2; subst; [reflexivity|].
        cbn [map]. f_equal; [apply Hd; [apply Na; now left|assumption]|]. apply IHl; [intros x Ix; apply Na; now right|assumption].
      + intros d E. subst a. eapply (struct_no_refs _ _ _ "Aux"%string _ Nr). cbn. tauto.
      + intros d E. subst ai. eapply (struct_no_refs _ _ _ "AuxInt"%string _ Nr). cbn. tauto.
    - destruct R as (p' & c' & E & _). discriminate.
    - exfalso. apply (Nr p). now left.
    - exfalso. apply (Nr p). now left.
    - inversion V.
    - destruct R as (p' & c' & E & G' & Vm & Vc & Hb & Vr). injection E as <-. rewrite G in G'. injection G' as <-. rewrite spelled_struct. unfold rule_doc. cbn [map fst snd].
      assert (FS : forall w v o, field_odoc (fun w d => no_refs d -> (forall v, value_at g w v -> spelled at_ d = value_doc wide_print v) /\ (forall r, rule_at g w r -> spelled at_ d = rule_doc wide_print r)) w o ->
        (forall d, o = Some d -> no_refs d) -> value_at g w v -> option_map (spelled at_) o = match v with NilValue => None | _ => Some (value_doc wide_print v) end).
      { intros w v o X Y Z. destruct X as [|w d Nw X]; [inversion Z; reflexivity|]. cbn [option_map]. rewrite (proj1 (X (Y d eq_refl)) v Z). destruct v; try reflexivity. inversion Z; subst. congruence. }
      rewrite (FS _ (r_match r') _ Hm), (FS _ (r_result r') _ Hr), (ptr_spelled _ _ (r_cond r') Hc); try assumption.
      + cbn [scalar string_doc option_map plain_doc spelled]. rewrite Hb. reflexivity.
      + intros d E. subst co. eapply (struct_no_refs _ _ _ "Condition"%string _ Nr). cbn. tauto.
      + intros d E. subst r. eapply (struct_no_refs _ _ _ "Result"%string _ Nr). cbn. tauto.
      + intros d E. subst m. eapply (struct_no_refs _ _ _ "Match"%string _ Nr). cbn. tauto.
  Qed.
  Lemma file_spelled p d f : file_odoc wide_print g (Some p) d -> no_refs d -> file_at g p f -> spelled at_ d = file_doc wide_print f.
  Proof.
    intros H Nr (sl & ws & G & Sl & F2). inversion H as [|p' sl' ws' rules G' Sl' F']; subst. rewrite G in G'. injection G' as <-.
    assert (ws = ws') by (eapply slice_at_det; eassumption). subst ws'. rewrite spelled_struct. unfold file_doc. cbn [map fst snd]. rewrite spelled_slice. do 5 f_equal.
    assert (Na : forall x, In x rules -> no_refs x).
    { intros x Ix. destruct (oslice "[]*ast.Rule" rules) as [sd|] eqn:Es; [|destruct rules; [destruct Ix|discriminate]].
      eapply slice_no_refs; [exact Es| |exact Ix]. eapply (struct_no_refs _ _ _ "Rules"%string _ Nr). cbn. tauto. }
    clear -F' F2 Na. revert F2. generalize (f_rules f) as rs. induction F' as [|w d ws rules Hd F' IH]; intros rs F2; inversion F2; subst; [reflexivity|].
    cbn [map]. f_equal; [apply (word_spelled w d Hd); [apply Na; now left|assumption]|]. apply IH; [intros x Ix; apply Na; now right|assumption].
  Qed.
End Trees.
