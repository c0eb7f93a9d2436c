(** Property C70: rules built by hand, with nil, shared or cyclic pointers. *)
From Verif Require Import Text GoAst Ast Printer Smt Expand Heap HeapWalk HeapPrint SpecExpand SpecHeap SpecNil SpecTyped HeapFacts HeapPrintFacts HeapNil TypedFacts TypedRead TypedParse Parse HeapParse GoParser SpecBuilt PropertiesHeap PropertiesHeapPrint.
From Coq Require Import Arith Lia Bool.
Open Scope nat_scope.
Open Scope list_scope.

(** *** C70: in memory that the Go compiler accepts, only nil pointers, cycles and bad opcodes can hurt

    [typed] (SpecTyped.v) is all that Go's types say about memory: a *ast.SExpr is nil or points to an
    ast.SExpr, a []ast.Value lies within an array of values, and so on.  Pointers may be nil, shared or cyclic.
    [fuel] is the depth of the stack, [spare] what append over-allocates. *)

(** Whatever the outcome of pass.ExpandAlternates, memory is still well typed, and if it panicked the cause is a
    nil pointer, the end of the stack, or an opcode whose alternatives do not fit together (C26): no index is out
    of range. *)
Theorem C70_expansion_is_type_safe :
  forall spare fuel f (h h' : heap) r,
    typed (nth_error h) -> (forall p, f = Some p -> exists sl, nth_error h p = Some (CFile sl)) ->
    h_ExpandAlternates spare fuel f h = (h', r) ->
    typed (nth_error h') /\ (forall m, r = Panic m -> nil_or_overflow m \/ opcode_panic (nth_error h) m).
Proof.
  intros spare fuel f h h' r T Hf E. destruct (good_ExpandAlternates true spare fuel f h Hf T _ _ E) as (T' & K & F). split; [exact T'|]. intros m ->. destruct F as [N|(a & ps & G & L & X)]; [left; exact N|right].
  exists a, ps. split; [apply K; [reflexivity|exact G]|auto].
Qed.
Print Assumptions C70_expansion_is_type_safe.

(** Whatever a program has parsed, expanded, built and edited, in whatever order and with whatever outcomes, its memory is
    well typed: the theorems here speak of all of it. *)
Theorem C70_histories : forall h, built h -> typed (nth_error h).
Proof.
  intros h B. induction B as [|h c B T C|h p c c' B T E A|gp spare fn data h h' r B T E|spare fuel f h h' r B T F E].
  - intros [|a] c; discriminate.
  - exact (typed_alloc false h c (fun X => False_ind _ (diff_false_true X)) T C).
  - assert (L : p < List.length h) by (apply nth_error_Some; congruence). unfold write. rewrite (proj2 (Nat.ltb_lt _ _) L). apply (typed_put false h p c c' E); [|exact T|]; destruct c, c'; cbn in *; try contradiction; auto. discriminate.
  - exact (proj1 (gp_Parse gp spare fn data h T _ _ E)).
  - exact (proj1 (C70_expansion_is_type_safe _ _ _ _ _ _ T F E)).
Qed.
Print Assumptions C70_histories.

(** If it succeeds, every rule of the file was there, was no deeper than the stack, and held no nil *ast.SExpr and no nil
    ast.Value; and if it held no nil *ast.Expr either, the file was a tree, to which C21-C30 apply. *)
Theorem C70_expanded_files_were_finite :
  forall spare fuel f (h h' : heap) sl,
    typed (nth_error h) -> nth_error h f = Some (CFile sl) -> h_ExpandAlternates spare fuel (Some f) h = (h', Ok tt) ->
    exists ws, slice_at (nth_error h) sl ws /\
      Forall (fun w => exists p, w = WRule (Some p) /\ shaped_rule (nth_error h) fuel p /\
                       forall y, within_rule (nth_error h) w y -> y <> WSExpr None /\ y <> WNil) ws /\
      ((forall w, In w ws -> ~ within_rule (nth_error h) w (WExpr None)) ->
       exists F, file_at (nth_error h) f F /\ file_height F <= fuel).
Proof.
  intros spare fuel f h h' sl T G E. destruct (exp_file spare h T fuel f sl h' tt G E) as (ws & Sw & F). exists ws. split; [exact Sw|]. split; [exact F|]. intros N.
  assert (D : exists rs, Forall2 (rule_at (nth_error h)) ws rs /\ Forall (fun r => rule_height r <= fuel) rs).
  { clear -F N. induction F as [|w ws (p & -> & Sh & Pr) F IH]; [exists []; split; constructor|].
    destruct IH as (rs & R & H); [intros w Iw; apply N; right; exact Iw|]. destruct (nil_rule (nth_error h) h (sub_refl _) buf_write fuel p Sh) as [(r & Rr & Hr)|[(c & G & B) _]]; [exists (r :: rs); split; constructor; assumption|exfalso].
    assert (Z : forall w, holds_nil (nth_error h) w -> within_value (nth_error h) w (WSExpr None) \/ within_value (nth_error h) w (WExpr None)).
    { induction 1 as [| |q c' ws' w' G' Sl' I' _ IH']; [left; constructor|right; constructor|]. destruct IH'; [left|right]; eapply within_arg; eauto. }
    assert (Q : forall y, within_value (nth_error h) (h_match c) y \/ within_value (nth_error h) (h_result c) y -> within_rule (nth_error h) (WRule (Some p)) y) by (intros y Hy; exists p, c; auto).
    assert (P1 : ~ within_rule (nth_error h) (WRule (Some p)) (WSExpr None)) by (intros X; destruct (Pr _ X) as [Y _]; apply Y; reflexivity).
    pose proof (N _ (or_introl eq_refl)) as P2. destruct B as [B|B]; destruct (Z _ B); first [apply P1; apply Q; auto; fail|apply P2; apply Q; auto]. }
  destruct D as (rs & R & H). exists {| f_rules := rs |}. split; [exists sl, ws; auto|]. apply max_le. exact H.
Qed.
Print Assumptions C70_expanded_files_were_finite.

(** What a file, rule or value prints, for every writer: it is a tree, and is printed as Printer.v says (C17-C20), or
    there is a panic for a nil pointer or the end of the stack.  Likewise Generate, with the scripts of Smt.v. *)
Theorem C70_printing_and_generating :
  forall W (write : W -> text -> W * option text) (h : heap) fuel w, typed (nth_error h) ->
    (forall p sl, nth_error h p = Some (CFile sl) ->
       (exists F, file_at (nth_error h) p F /\ hp_Fprint write fuel w (PFile (Some p)) h = (h, Ok (Fprint write w (NFile F)))) \/
       (exists m, nil_or_overflow m /\ hp_Fprint write fuel w (PFile (Some p)) h = (h, Panic m))) /\
    (forall p, rule_word (nth_error h) (WRule p) ->
       (exists r, rule_at (nth_error h) (WRule p) r /\ hp_Fprint write fuel w (PWord (WRule p)) h = (h, Ok (Fprint write w (NRule r)))) \/
       (exists m, nil_or_overflow m /\ hp_Fprint write fuel w (PWord (WRule p)) h = (h, Panic m))) /\
    (forall x, value_word (nth_error h) x ->
       (exists v, value_at (nth_error h) x v /\ hp_Fprint write fuel w (PWord x) h = (h, Ok (Fprint write w (node_of_value v)))) \/
       (exists m, nil_or_overflow m /\ hp_Fprint write fuel w (PWord x) h = (h, Panic m))) /\
    (forall p, rule_word (nth_error h) (WRule p) ->
       (exists r, rule_at (nth_error h) (WRule p) r /\ hg_Generate fuel p h = (h, Generate r)) \/
       (exists m, nil_or_overflow m /\ hg_Generate fuel p h = (h, Panic m))).
Proof.
  intros W write h fuel w T. pose proof (sub_refl (nth_error h)) as S. split; [|split; [|split]].
  - intros p sl G. destruct (print_file h T write fuel w p sl G) as [(F & HF & L)|D]; [left|right; exact D]. exists F. split; [exact HF|]. exact (Fprint_file write _ h S fuel w p F L HF).
  - intros p V. destruct (print_rule h T write fuel _ V) as [(r & R & L)|D]; [left; exists r; split; [exact R|]|right].
    + destruct R as (q & c & E & R). inversion E; subst. apply (Fprint_rule write _ h S fuel w q r L). exists q, c. auto.
    + unfold hp_Fprint. cbn [hp_node]. apply (dies_bind h). exact (D _ _ eq_refl).
  - intros x V. destruct (print_value h T write fuel x V) as [(v & Hv & L)|D]; [left; exists v; split; [exact Hv|exact (Fprint_value write _ h S fuel w x v L Hv)]|right].
    unfold hp_Fprint. apply (dies_bind h). destruct x; try (apply D). destruct V.
  - intros p V. destruct (gen_rule h T fuel p V) as [(r & R & L)|D]; [left; exists r; split; [exact R|]|right; exact D].
    destruct R as (q & c & E & R). inversion E; subst. apply (Generate_ok _ h S fuel q r L). exists q, c. auto.
Qed.
Print Assumptions C70_printing_and_generating.

(** A feature test that answers is right about every S-expression the rule holds, and a test that answers no has met
    neither nil pointers nor nil values; else it panics. *)
Theorem C70_feature_tests :
  forall x (h : heap) fuel p, typed (nth_error h) -> rule_word (nth_error h) (WRule p) ->
    exists r, h_has x fuel p h = (h, r) /\
      match r with
      | Ok true => exists q s, within_rule (nth_error h) (WRule p) (WSExpr (Some q)) /\ nth_error h q = Some (CSExpr s) /\ shows x s
      | Ok false =>
          (forall q s, within_rule (nth_error h) (WRule p) (WSExpr (Some q)) -> nth_error h q = Some (CSExpr s) -> ~ shows x s) /\
          (forall y, within_rule (nth_error h) (WRule p) y -> y <> WSExpr None /\ y <> WNil) /\
          exists q, p = Some q /\ shaped_rule (nth_error h) fuel q
      | Err _ => False
      | Panic m => nil_or_overflow m \/ m = unexpected_type (str "<nil>")
      end.
Proof.
  intros x h fuel p T V. destruct (has_told h T x fuel p V) as (r & E & H). exists r. split; [exact E|]. destruct r as [[]| |]; cbn in H; auto. destruct H as (q & -> & Sh & M). split; [|split].
  - intros q' s Wt G. destruct (M _ Wt) as (_ & _ & X). exact (X _ _ eq_refl G).
  - intros y Wt. destruct (M _ Wt) as (A & B & _). auto.
  - eauto.
Qed.
Print Assumptions C70_feature_tests.

(** However deep the stack, a rule with an S-expression that is an argument of itself is never printed, never turned into a
    script, never found to lack a feature, and a file with such a rule is never expanded or printed. *)
Theorem C70_cycles :
  forall (h : heap) p q, typed (nth_error h) -> rule_word (nth_error h) (WRule (Some p)) ->
    within_rule (nth_error h) (WRule (Some p)) (WSExpr (Some q)) -> cyclic (nth_error h) q ->
    forall fuel,
      (exists m, nil_or_overflow m /\ hp_Bytes fuel (PWord (WRule (Some p))) h = (h, Panic m)) /\
      (exists m, nil_or_overflow m /\ hg_Generate fuel (Some p) h = (h, Panic m)) /\
      (forall x, snd (h_has x fuel (Some p) h) <> Ok false) /\
      (forall spare f sl ws, nth_error h f = Some (CFile sl) -> slice_at (nth_error h) sl ws -> In (WRule (Some p)) ws ->
         (exists m, nil_or_overflow m /\ hp_Bytes fuel (PFile (Some f)) h = (h, Panic m)) /\
         snd (h_ExpandAlternates spare fuel (Some f) h) <> Ok tt).
Proof.
  intros h p q T V Wt C fuel. pose proof (sub_refl (nth_error h)) as S.
  assert (NS : forall n, ~ shaped_rule (nth_error h) n p).
  { intros n (c & o & G & Sm & _ & Sr). destruct Wt as (p' & c' & [= <-] & G' & B). rewrite G in G'. injection G' as <-. destruct B as [B|B]; destruct (shaped_within _ _ _ B n) as (k & Sk & _); auto; exact (shaped_acyclic _ _ C _ Sk). }
  assert (NT : forall r, ~ rule_at (nth_error h) (WRule (Some p)) r).
  { intros r (p' & c & [= <-] & G & Vm & Ec & _ & Vr). apply (NS (rule_height r)). exists c, (r_cond r). split; [exact G|]. split; [|split; [exact Ec|]]; (eapply tree_shaped; [eassumption|]); unfold rule_height; lia. }
  split; [|split; [|split]].
  - destruct (print_rule h T buf_write fuel _ V) as [(r & R & _)|D]; [destruct (NT _ R)|]. unfold hp_Bytes. apply (dies_bind h). unfold hp_Fprint. cbn [hp_node]. apply (dies_bind h). exact (D _ _ eq_refl).
  - destruct (gen_rule h T fuel _ V) as [(r & R & _)|D]; [destruct (NT _ R)|exact D].
  - intros x E. destruct (C70_feature_tests x h fuel _ T V) as (r & E' & H). rewrite E' in E. cbn in E. subst r. destruct H as (_ & _ & q' & [= <-] & Sh). exact (NS _ Sh).
  - intros spare f sl ws G Sl Ip. split.
    + destruct (print_file h T buf_write fuel [] f sl G) as [(F & (sl' & ws' & G' & Sl' & R) & _)|D].
      * exfalso. rewrite G in G'. injection G' as <-. rewrite (slice_at_fun _ _ _ _ Sl Sl') in Ip. clear -R Ip NT. induction R as [|w r ws rs Hr R IH]; [destruct Ip|]. destruct Ip as [->|Ip]; [exact (NT _ Hr)|auto].
      * unfold hp_Bytes. apply (dies_bind h). exact D.
    + intros E. destruct (h_ExpandAlternates spare fuel (Some f) h) as [h' r] eqn:E'. cbn in E. subst r. destruct (exp_file spare h T fuel f sl h' tt G E') as (ws' & Sl' & F).
      rewrite (slice_at_fun _ _ _ _ Sl Sl') in Ip. rewrite Forall_forall in F. destruct (F _ Ip) as (p' & [= <-] & Sh & _). exact (NS _ Sh).
Qed.
Print Assumptions C70_cycles.

(** The hypotheses are met: the heap of C30 (shared nodes) and that of C66 (a nil pointer) are well typed; so is
    one with a rule (Neg (Neg (Neg ...))) => x, in a file. *)
Definition knot_heap : heap :=
  [CSExpr {| h_binding := []; h_op := HOpcode (str "Neg"); h_type := []; h_auxint := None; h_aux := None;
     h_args := {| sl_arr := 1; sl_off := 0; sl_len := 1; sl_cap := 1 |}; h_ellipsis := false; h_trailing := false |};
   CArr [WSExpr (Some 0)]; CRule {| h_match := WSExpr (Some 0); h_cond := None; h_block := []; h_result := WVar (str "x") |};
   CArr [WRule (Some 2); WRule None]; CFile {| sl_arr := 3; sl_off := 0; sl_len := 1; sl_cap := 2 |}].
Ltac typed_word := cbn; try exact I; try (intros ? [= <-]); try (intros; discriminate); eauto.
Ltac typed_cells := intros a c E; repeat (destruct a as [|a]; [injection E as <-; cbn [typed_cell]|]); [..|destruct a; discriminate E];
  repeat split; try (cbn; intros; discriminate); try (cbn; exact I); try (cbn; lia); typed_word; try (right; eexists; split; [reflexivity|]; split; [cbn; lia|]; repeat constructor; typed_word).
Example C70_nonempty :
  typed (nth_error ex_heap) /\ typed (nth_error nil_heap) /\ typed (nth_error knot_heap) /\
  (exists h', h_ExpandAlternates (fun _ _ => 3) 9 (Some 7) ex_heap = (h', Ok tt)) /\
  (forall w, In w [WRule (Some 5)] -> ~ within_rule (nth_error ex_heap) w (WExpr None)) /\
  snd (hp_Bytes 9 (PWord (WRule (Some 4))) nil_heap) = Panic nil_deref /\ snd (h_has FAux 9 (Some 4) nil_heap) = Panic nil_deref /\
  rule_word (nth_error knot_heap) (WRule (Some 2)) /\ within_rule (nth_error knot_heap) (WRule (Some 2)) (WSExpr (Some 0)) /\
  cyclic (nth_error knot_heap) 0 /\ slice_at (nth_error knot_heap) {| sl_arr := 3; sl_off := 0; sl_len := 1; sl_cap := 2 |} [WRule (Some 2)] /\
  snd (h_ExpandAlternates (fun _ _ => 0) 50 (Some 4) knot_heap) = Panic stack_overflow.
Proof.
  split; [typed_cells; eexists; reflexivity|]. split; [typed_cells; eexists; reflexivity|]. split; [typed_cells; eexists; reflexivity|].
  split; [destruct (h_ExpandAlternates (fun _ _ => 3) 9 (Some 7) ex_heap) as [h' r] eqn:E; exists h'; vm_compute in E; inversion E; subst; reflexivity|].
  split.
  { assert (A0 : slice_at (nth_error ex_heap) (h_args ex_node) [WVar (str "x")]) by (split; [reflexivity|]; right; exists [WNil], []; split; reflexivity).
    assert (A1 : slice_at (nth_error ex_heap) (h_args ex_top) [WVar (str "x"); WSExpr (Some 0)]) by (split; [reflexivity|]; right; exists [], []; split; reflexivity).
    assert (W0 : ~ within_value (nth_error ex_heap) (WSExpr (Some 0)) (WExpr None)).
    { intros H. inversion H as [|p s ws w x G Sl Iw Hw]; subst. injection G as <-. rewrite (slice_at_fun _ _ _ _ Sl A0) in Iw. destruct Iw as [<-|[]]. inversion Hw. }
    assert (W1 : ~ within_value (nth_error ex_heap) (WSExpr (Some 1)) (WExpr None)).
    { intros H. inversion H as [|p s ws w x G Sl Iw Hw]; subst. injection G as <-. rewrite (slice_at_fun _ _ _ _ Sl A1) in Iw. destruct Iw as [<-|[<-|[]]]; [inversion Hw|exact (W0 Hw)]. }
    intros w [<-|[]] (p & c & [= <-] & [= <-] & [H|H]); exact (W1 H). }
  split; [vm_compute; reflexivity|]. split; [vm_compute; reflexivity|]. split; [intros a [= <-]; eexists; reflexivity|].
  split; [exists 2; eexists; split; [reflexivity|]; split; [reflexivity|]; left; constructor|].
  split; [eexists _, [WSExpr (Some 0)], _; split; [reflexivity|]; split; [split; [reflexivity|]; right; exists [], []; split; reflexivity|]; split; [left; reflexivity|constructor]|].
  split; [split; [reflexivity|]; right; exists [], [WRule None]; split; reflexivity|]. vm_compute. reflexivity.
Qed.

(** A program that parses (Neg x) => x and then makes the S-expression its own argument. *)
Example C70_histories_example : exists h1 h2,
  h_Parse ParseExpr (fun _ _ => 0) (str "f") (str "(Neg x) => x") [] = (h1, Ok 4) /\ h2 = write 0 (CArr [WSExpr (Some 1)]) h1 /\
  built h2 /\ cyclic (nth_error h2) 1 /\ snd (hp_Bytes 9 (PFile (Some 4)) h1) = Ok (str "(Neg x) => x" ++ [nl]) /\
  snd (hp_Bytes 99 (PFile (Some 4)) h2) = Panic stack_overflow.
Proof.
  destruct (h_Parse ParseExpr (fun _ _ => 0) (str "f") (str "(Neg x) => x") []) as [h1 r] eqn:E. exists h1, (write 0 (CArr [WSExpr (Some 1)]) h1).
  assert (B : built h1) by (eapply built_parse; [exact built_nothing|exact E]). vm_compute in E. inversion E; subst h1 r. split; [reflexivity|]. split; [reflexivity|]. split; [|split; [|split]].
  - eapply built_assign; [exact B|reflexivity|]. split; [reflexivity|]. split; intros F; repeat constructor; try (inversion F; subst; contradiction). intros a [= <-]. eexists; reflexivity.
  - eexists _, [WSExpr (Some 1)], _. split; [reflexivity|]. split; [split; [reflexivity|]; right; exists [], []; split; reflexivity|]. split; [left; reflexivity|constructor].
  - vm_compute. reflexivity.
  - vm_compute. reflexivity.
Qed.
