(** Property C66: printing and generating on a heap of pointers and slices. *)
From Verif Require Import Text GoAst Ast Expand Printer Smt Heap HeapWalk HeapPrint SpecHeap SpecNil Conc SpecConc.
From Verif Require Import HeapFacts HeapPrintFacts HeapNil PropertiesHeap PropertiesConc.
From Coq Require Import Arith Lia.

(** *** C66: the printer and Generate only read, and depend on the trees only

    [hp_Fprint], [hp_Bytes] and [hg_Generate] are the functions of printer/printer.go and
    smt2/generate.go with pointers and slices (HeapPrint.v); [Fprint], [Bytes] and [Generate] those on
    trees (Printer.v, Smt.v), to which C17-C20 and C36-C42 apply.  [fuel] is the depth of the
    stack. *)

(** However the nodes are shared, and for every writer, what is printed is the tree. *)
Theorem C66_printing :
  forall W (write : W -> text -> W * option text) (h : heap) fuel w,
    (forall p F, file_at (nth_error h) p F -> file_height F <= fuel ->
       hp_Fprint write fuel w (PFile (Some p)) h = (h, Ok (Fprint write w (NFile F)))) /\
    (forall p r, rule_at (nth_error h) (WRule (Some p)) r -> rule_height r <= fuel ->
       hp_Fprint write fuel w (PWord (WRule (Some p))) h = (h, Ok (Fprint write w (NRule r)))) /\
    (forall x v, value_at (nth_error h) x v -> height v <= fuel ->
       hp_Fprint write fuel w (PWord x) h = (h, Ok (Fprint write w (node_of_value v)))).
Proof.
  intros W write h fuel w. split; [|split].
  - intros p F A H. exact (Fprint_file write _ h (sub_refl _) _ _ _ _ H A).
  - intros p r A H. exact (Fprint_rule write _ h (sub_refl _) _ _ _ _ H A).
  - intros x v A H. exact (Fprint_value write _ h (sub_refl _) _ _ _ _ H A).
Qed.
Print Assumptions C66_printing.

(** And the script, or the error, is that of the tree. *)
Theorem C66_generating :
  forall (h : heap) fuel p r,
    rule_at (nth_error h) (WRule (Some p)) r -> rule_height r <= fuel ->
    hg_Generate fuel (Some p) h = (h, Generate r).
Proof. intros h fuel p r A H. exact (Generate_ok _ h (sub_refl _) _ _ _ H A). Qed.
Print Assumptions C66_generating.

(** So after pass.ExpandAlternates has returned, printing the file and generating from its rules
    show the expanded file. *)
Theorem C66_after_expansion :
  forall spare fuel p (h h' : heap) F F' e,
    file_at (nth_error h) p F -> file_height F <= fuel -> ExpandAlternates F = Ok (F', e) ->
    h_ExpandAlternates spare fuel (Some p) h = (h', match e with None => Ok tt | Some e => Err e end) ->
    forall n, file_height F' <= n ->
      hp_Bytes n (PFile (Some p)) h' = (h', Bytes (NFile F')) /\
      exists sl ws, nth_error h' p = Some (CFile sl) /\ slice_at (nth_error h') sl ws /\
        Forall2 (fun w r => exists q, w = WRule (Some q) /\ hg_Generate n (Some q) h' = (h', Generate r)) ws (f_rules F').
Proof.
  intros spare fuel p h h' F F' e A Hf E X n Hn. pose proof (C30_sharing_does_not_change_the_outcome spare fuel p h F A Hf) as B. rewrite E in B.
  assert (A' : file_at (nth_error h') p F') by (destruct e; destruct B as (h2 & Y & A2); congruence). split.
  - apply Bytes_of. intros w. exact (Fprint_file _ _ h' (sub_refl _) _ _ _ _ Hn A').
  - destruct A' as (sl & ws & G & Sl & Fw). exists sl, ws. split; [exact G|]. split; [exact Sl|]. unfold file_height in Hn.
    clear -Fw Hn. induction Fw as [|w r ws rs R Fw IH]; constructor; cbn [map fold_right] in Hn.
    + destruct R as (q & c & -> & R). exists q. split; [reflexivity|]. apply C66_generating; [exists q, c; auto|lia].
    + apply IH. lia.
Qed.
Print Assumptions C66_after_expansion.

(** On any heap whatever (cyclic or ill-typed ones too) and for any number of goroutines, printing,
    generating and the feature tests only read, whatever the outcome. *)
Theorem C66_only_reads :
  forall (h : heap) cs tr gs h',
    Forall (fun c => match c with CallHas _ _ _ | CallPrint _ _ | CallGenerate _ _ => True | _ => False end) cs ->
    schedule (map start cs, h) tr (gs, h') ->
    Forall (fun x => exists p, snd x = Reads p) tr /\ h' = h.
Proof.
  intros h cs tr gs h' F S. apply (ro_schedule _ _ _ S). cbn [fst]. apply Forall_map. eapply Forall_impl; [|exact F].
  intros c Hc. apply ro_start. exact Hc.
Qed.
Print Assumptions C66_only_reads.

(** A rule in which a nil *ast.SExpr or *ast.Expr stands for a value, at any depth, makes Print and Generate
    panic; without one it is a tree, and they do not. *)
Theorem C66_nil_pointers :
  forall W (write : W -> text -> W * option text) (h : heap) n w p,
    shaped_rule (nth_error h) n p ->
    (rule_holds_nil (nth_error h) p <-> hp_Fprint write n w (PWord (WRule (Some p))) h = (h, Panic nil_deref)) /\
    (rule_holds_nil (nth_error h) p -> hg_Generate n (Some p) h = (h, Panic nil_deref)) /\
    (~ rule_holds_nil (nth_error h) p -> exists r, rule_at (nth_error h) (WRule (Some p)) r /\
       hp_Fprint write n w (PWord (WRule (Some p))) h = (h, Ok (Fprint write w (NRule r))) /\
       hg_Generate n (Some p) h = (h, Generate r)).
Proof.
  intros W write h n w p Sh.
  destruct (nil_rule (nth_error h) h (sub_refl _) write n p Sh) as [(r & A & Hr)|[N P]].
  - pose proof (tree_rule_no_nil _ _ _ A) as X. pose proof (Fprint_rule write _ h (sub_refl _) n w _ _ Hr A) as Y. split; [|split].
    + split; [contradiction|]. rewrite Y. discriminate.
    + contradiction.
    + intros _. exists r. split; [exact A|]. split; [exact Y|apply C66_generating; assumption].
  - destruct (nil_rule (nth_error h) h (sub_refl _) buf_write n p Sh) as [(r & A & Hr)|[_ Pb]]; [destruct (tree_rule_no_nil _ _ _ A N)|]. split; [|split].
    + split; [intros _; apply nil_Fprint; exact P|auto].
    + intros _. apply nil_Generate. exact Pb.
    + contradiction.
Qed.
Print Assumptions C66_nil_pointers.

(** The hypotheses are met: the heap of C30 (shared nodes), what its first file prints before and after
    the expansion, and the scripts; and a rule (Neg x) => (Neg nil). *)
Definition nil_heap : heap :=
  [CSExpr ex_node; CSExpr {| h_binding := []; h_op := HOpcode (str "Neg"); h_type := []; h_auxint := None; h_aux := None;
     h_args := {| sl_arr := 3; sl_off := 0; sl_len := 1; sl_cap := 1 |}; h_ellipsis := false; h_trailing := false |};
   CArr [WNil; WVar (str "x")]; CArr [WSExpr None];
   CRule {| h_match := WSExpr (Some 0); h_cond := None; h_block := []; h_result := WSExpr (Some 1) |};
   CRule {| h_match := WSExpr (Some 0); h_cond := None; h_block := []; h_result := WSExpr (Some 0) |}].
Example C66_nonempty :
  snd (hp_Bytes 9 (PFile (Some 7)) ex_heap) = Ok (str "(Add(8|16) x (Neg x)) => (Add(8|16) x (Neg x))" ++ [nl]) /\
  (exists h', h_ExpandAlternates (fun _ _ => 3) 9 (Some 7) ex_heap = (h', Ok tt) /\
    snd (hp_Bytes 9 (PFile (Some 7)) h') =
      Ok (str "(Add8 x (Neg x)) => (Add8 x (Neg x))" ++ [nl] ++ str "(Add16 x (Neg x)) => (Add16 x (Neg x))" ++ [nl])) /\
  shaped_rule (nth_error nil_heap) 9 4 /\ rule_holds_nil (nth_error nil_heap) 4 /\
  snd (hg_Generate 9 (Some 4) nil_heap) = Panic nil_deref /\
  shaped_rule (nth_error nil_heap) 9 5 /\ ~ rule_holds_nil (nth_error nil_heap) 5 /\
  snd (hp_Bytes 9 (PWord (WRule (Some 5))) nil_heap) = Ok (str "(Neg x) => (Neg x)").
Proof.
  assert (S2 : slice_at (nth_error nil_heap) (h_args ex_node) [WVar (str "x")]) by (split; [reflexivity|]; right; exists [WNil], []; split; reflexivity).
  assert (N : shaped (nth_error nil_heap) 9 (WSExpr (Some 0))).
  { cbn. exists ex_node, [WVar (str "x")], (Opcode (str "Neg")), None, None. repeat (split; [reflexivity || exact I|]). split; [exact S2|]. constructor; [exact I|constructor]. }
  assert (S3 : forall c, nth_error nil_heap 1 = Some (CSExpr c) -> slice_at (nth_error nil_heap) (h_args c) [WSExpr None]) by (intros c [= <-]; split; [reflexivity|]; right; exists [], []; split; reflexivity).
  assert (R5 : shaped_rule (nth_error nil_heap) 9 5) by (eexists _, None; split; [reflexivity|]; cbn [h_match h_result h_cond]; split; [exact N|]; split; [exact I|exact N]).
  split; [vm_compute; reflexivity|]. split; [|split; [|split; [|split; [|split; [exact R5|split]]]]].
  - destruct (h_ExpandAlternates (fun _ _ => 3) 9 (Some 7) ex_heap) as [h' r] eqn:E. exists h'. vm_compute in E. inversion E; subst. split; [reflexivity|]. vm_compute. reflexivity.
  - eexists _, None. split; [reflexivity|]. cbn [h_match h_result h_cond]. split; [exact N|]. split; [exact I|]. cbn [shaped].
    eexists _, [WSExpr None], (Opcode (str "Neg")), None, None. split; [reflexivity|]. split; [reflexivity|]. split; [exact I|]. split; [exact I|]. split; [apply S3; reflexivity|]. constructor; [exact I|constructor].
  - eexists. split; [reflexivity|]. right. cbn [h_result]. eapply (nil_arg _ 1); [reflexivity|apply S3; reflexivity|left; reflexivity|constructor].
  - vm_compute. reflexivity.
  - intros (c & [= <-] & H). cbn [h_match h_result] in H.
    assert (Z : ~ holds_nil (nth_error nil_heap) (WSExpr (Some 0))).
    { intros Z. inversion Z as [| |q c ws x Ec Sl Ix Hx]; subst. inversion Ec; subst. rewrite <- (slice_at_fun _ _ _ _ S2 Sl) in Ix. destruct Ix as [<-|[]]. inversion Hx. }
    destruct H; contradiction.
  - vm_compute. reflexivity.
Qed.
