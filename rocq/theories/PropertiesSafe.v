(** Property C77: traversals of rules built by hand, by visitors that change them. *)
From Verif Require Import Text GoAst Ast Walk Printer Expand Heap HeapWalk HeapParse HeapVisit SpecHeap SpecNil SpecTyped SpecBuilt SpecVisit SpecSafe
  HeapFacts HeapParseFacts HeapNil TypedFacts TypedRead TypedParse VisitFacts TourFacts SafeFacts PropertiesHeap PropertiesHeapPrint PropertiesTyped PropertiesVisit.
From Verif Require Import SpecTyped.
From Coq Require Import Arith Lia Bool.
Open Scope nat_scope.
Open Scope list_scope.

(** *** C77: Traversing rules built by hand

    [typed] (SpecTyped.v) is all that Go's types say about memory; [reaches] (SpecSafe.v) is what code that the compiler
    accepts does to it. *)

(** The Visit method that ended the traversal: called at a node of the right type, in memory the traversal came to, it
    left memory [h'] and returned or panicked with [r]. *)
Definition visit_ended {V S} (visit : V -> hnode -> S -> M (option V * S)) (h h' : heap) (r : res (option V * S)) : Prop :=
  exists v n s h0, reaches h h0 /\ node_typed (nth_error h0) n /\ run (visit v n s) h0 = (h', r).

(** Walk with any visitor whose Visit does what Go lets it: memory stays well typed, whatever the outcome, and what Walk
    does itself panics only for a nil pointer, the end of the stack, or a nil interface: no index is out of range,
    whatever Visit did to the slices being ranged over, and there are no errors. *)
Theorem C77_type_safe :
  forall (V S : Type) (visit : V -> hnode -> S -> M (option V * S)),
    (forall v n s (h h' : heap) r, typed (nth_error h) -> node_typed (nth_error h) n -> run (visit v n s) h = (h', r) -> reaches h h') ->
    forall fuel v n s (h h' : heap) r,
      typed (nth_error h) -> node_typed (nth_error h) n -> run (h_Walk visit fuel v n s) h = (h', r) ->
      reaches h h' /\ typed (nth_error h') /\
      match r with
      | Ok _ => True
      | Panic m => m = nil_deref \/ m = stack_overflow \/ m = unexpected_type (str "<nil>") \/ visit_ended visit h h' (Panic m)
      | Err e => visit_ended visit h h' (Err e)
      end.
Proof.
  intros V S visit G fuel v n s h h' r T N E. destruct (safe_Walk visit G fuel v n s h N T _ _ E) as (R & O & _). split; [exact R|]. split; [exact (proj1 (reaches_stays _ _ T R))|].
  destruct r as [a|e|m]; [exact I| |].
  - destruct O as [[]|(v0 & n0 & s0 & h0 & r0 & R0 & N0 & E0 & ->)]. exists v0, n0, s0, h0. auto.
  - destruct O as [[[X|X]|X]|(v0 & n0 & s0 & h0 & r0 & R0 & N0 & E0 & ->)]; auto. right. right. right. exists v0, n0, s0, h0. auto.
Qed.
Print Assumptions C77_type_safe.
(** Inspect with such a callback. *)
Theorem C77_inspect :
  forall (S : Type) (f : hnode -> S -> M (bool * S)),
    (forall n s (h h' : heap) r, typed (nth_error h) -> node_typed (nth_error h) n -> run (f n s) h = (h', r) -> reaches h h') ->
    forall fuel n s (h h' : heap) r,
      typed (nth_error h) -> node_typed (nth_error h) n -> run (h_Inspect f fuel n s) h = (h', r) ->
      reaches h h' /\ typed (nth_error h') /\
      ((forall n s (h0 h1 : heap) r, typed (nth_error h0) -> node_typed (nth_error h0) n -> run (f n s) h0 = (h1, r) -> exists a, r = Ok a) ->
       (exists s', r = Ok s') \/ r = Panic nil_deref \/ r = Panic stack_overflow \/ r = Panic (unexpected_type (str "<nil>"))).
Proof.
  intros S f G fuel n s h h' r T N E. destruct (C77_type_safe unit S (h_inspector f)) with (fuel := fuel) (v := tt) (n := n) (s := s) (h := h) (h' := h') (r := r) as (R & T' & O); auto.
  { intros [] n0 s0 h0 h1 r0 T0 N0 E0. unfold h_inspector in E0. rewrite run_bind in E0. destruct (f n0 s0 h0) as [h2 r2] eqn:E2. pose proof (G _ _ _ _ _ T0 N0 E2) as R2. destruct r2; inversion E0; subst; exact R2. }
  split; [exact R|]. split; [exact T'|]. intros Fin.
  assert (Z : forall r0 : res (option unit * S), visit_ended (h_inspector f) h h' r0 -> exists a, r0 = Ok a).
  { intros r0 ([] & n0 & s0 & h0 & R0 & N0 & E0). unfold h_inspector in E0. rewrite run_bind in E0. destruct (f n0 s0 h0) as [h2 r2] eqn:E2.
    destruct (Fin _ _ _ _ _ (proj1 (reaches_stays _ _ T R0)) N0 E2) as [a ->]. inversion E0. eauto. }
  destruct r as [a|e|m]; [left; eauto|destruct (Z _ O); discriminate|]. destruct O as [->|[->|[->|O]]]; auto. destruct (Z _ O). discriminate.
Qed.
Print Assumptions C77_inspect.
(** A program may traverse as often as it likes, with such visitors: its memory is one of C70's. *)
Theorem C77_histories : forall h h', built h -> reaches h h' -> built h'.
Proof.
  intros h h' B R. induction R; [exact B|apply built_new|eapply built_assign|eapply built_parse|eapply built_expand]; eassumption.
Qed.
Print Assumptions C77_histories.

(** A visitor that only reads and always goes on gets through a value exactly if it has no more levels than the stack and
    no nil *ast.SExpr, nil ast.Value, nil ast.Op or nil part of an opcode in it; else Walk panics.  So too for a rule,
    and for a file. *)
Definition clear (g : nat -> option cell) (fuel : nat) (w : word) : Prop :=
  shaped g fuel w /\ forall y, within_value g w y -> passable g y.
Definition clear_sides (g : nat -> option cell) (fuel : nat) (w : word) : Prop :=
  exists p c, w = WRule (Some p) /\ g p = Some (CRule c) /\ clear g fuel (h_match c) /\ clear g fuel (h_result c).
Theorem C77_whole :
  forall (V S : Type) (visit : V -> hnode -> S -> M (option V * S)) (h : heap) fuel v s, typed (nth_error h) ->
    (forall v n s, exists v' s', run (visit v n s) h = (h, Ok (Some v', s'))) ->
    let walks n (P : Prop) := exists r, run (h_Walk visit fuel v n s) h = (h, r) /\
      match r with Ok _ => P | Err _ => False | Panic _ => ~ P end in
    (forall w, value_word (nth_error h) w -> walks (HWord w) (clear (nth_error h) fuel w)) /\
    (forall w, rule_word (nth_error h) w -> walks (HWord w) (clear_sides (nth_error h) fuel w)) /\
    (forall f sl ws, nth_error h f = Some (CFile sl) -> slice_at (nth_error h) sl ws ->
       walks (HFile (Some f)) (Forall (clear_sides (nth_error h) fuel) ws)).
Proof.
  intros V S visit h fuel v s T G walks. split; [|split].
  - intros w Vw. assert (E : h_Walk visit fuel v (HWord w) s = h_visit_value visit fuel v w s) by (destruct w; [reflexivity..|destruct Vw]). unfold walks. rewrite E. exact (dec_value visit h T G fuel v w s Vw).
  - intros w Vw. destruct w; try (destruct Vw; fail). exact (dec_rule visit h T G fuel v _ s Vw).
  - intros f sl ws E Sw. exact (dec_file visit h T G fuel v f s sl ws E Sw).
Qed.
Print Assumptions C77_whole.
(** So it gets through no rule with an S-expression that is an argument of itself, and no file with such a rule. *)
Theorem C77_cycles :
  forall (V S : Type) (visit : V -> hnode -> S -> M (option V * S)) (h : heap) p q, typed (nth_error h) ->
    (forall v n s, exists v' s', run (visit v n s) h = (h, Ok (Some v', s'))) ->
    rule_word (nth_error h) (WRule (Some p)) -> within_rule (nth_error h) (WRule (Some p)) (WSExpr (Some q)) -> cyclic (nth_error h) q ->
    forall fuel v s,
      (exists m, run (h_Walk visit fuel v (HWord (WRule (Some p))) s) h = (h, Panic m)) /\
      (forall f sl ws, nth_error h f = Some (CFile sl) -> slice_at (nth_error h) sl ws -> In (WRule (Some p)) ws ->
         exists m, run (h_Walk visit fuel v (HFile (Some f)) s) h = (h, Panic m)).
Proof.
  intros V S visit h p q T G Vw Wt C fuel v s.
  assert (N : ~ clear_sides (nth_error h) fuel (WRule (Some p))).
  { intros (p' & c & [= <-] & E & [Sm _] & [Sr _]). destruct Wt as (p' & c' & [= <-] & E' & B). rewrite E in E'. injection E' as <-.
    destruct B as [B|B]; destruct (shaped_within _ _ _ B fuel) as (k & Sk & _); auto; exact (shaped_acyclic _ _ C _ Sk). }
  destruct (C77_whole V S visit h fuel v s T G) as (_ & Wr & Wf). split.
  - destruct (Wr _ Vw) as ([a|e|m] & E & D); [destruct (N D)|destruct D|eauto].
  - intros f sl ws E Sw Ip. destruct (Wf f sl ws E Sw) as ([a|e|m] & E' & D); [|destruct D|eauto]. rewrite Forall_forall in D. destruct (N (D _ Ip)).
Qed.
Print Assumptions C77_cycles.

(** A visitor is shown a nil pointer, or a nil interface, before its fields are read, and can keep Walk from reading them. *)
Theorem C77_nil_nodes :
  forall (V S : Type) (visit : V -> hnode -> S -> M (option V * S)) (h h' : heap) fuel v n s r, 0 < fuel ->
    In n [HFile None; HWord (WRule None); HWord (WSExpr None); HWord WNil; HOp HNilOp; HPart PNilPart] ->
    run (visit v n s) h = (h', r) ->
    run (h_Walk visit fuel v n s) h =
      (h', match r with
           | Ok (None, s') => Ok s'
           | Ok (Some _, _) => Panic (match n with HWord WNil | HOp _ | HPart _ => unexpected_type (str "<nil>") | _ => nil_deref end)
           | Err e => Err e
           | Panic m => Panic m
           end).
Proof.
  intros V S visit h h' [|fuel] v n s r L In E; [lia|].
  repeat (destruct In as [<-|In]; [cbn [h_Walk h_visit_file h_visit_rule h_visit_value h_visit_op h_visit_part is_rule negb]; unfold h_visit_file, h_visit_op, h_visit_part;
    rewrite run_bind, E; destruct r as [[[v'|] s']| |]; reflexivity|]). destruct In.
Qed.
Print Assumptions C77_nil_nodes.

(** Contains with a predicate that reads: yes means that some node below satisfies it, no that none does; else a panic for
    a nil node or the end of the stack. *)
Theorem C77_contains :
  forall (pred : hnode -> M bool) (h : heap) fuel n, typed (nth_error h) -> node_typed (nth_error h) n ->
    (forall n, exists b, run (pred n) h = (h, Ok b)) ->
    exists r, run (h_Contains pred fuel n) h = (h, r) /\
      match r with
      | Ok true => exists x, below (nth_error h) n x /\ run (pred x) h = (h, Ok true)
      | Ok false => forall x, below (nth_error h) n x -> run (pred x) h = (h, Ok false)
      | Err _ => False
      | Panic m => m = nil_deref \/ m = stack_overflow \/ m = unexpected_type (str "<nil>")
      end.
Proof.
  intros pred h fuel n T N R. destruct (tells_Walk pred h T R fuel n N false) as (r & E & D). exists r. split; [exact E|]. destruct r as [[]|e|m].
  - destruct D as [D|D]; [discriminate|exact D].
  - exact (proj2 D).
  - exact D.
  - destruct D as [[D|D]|D]; auto.
Qed.
Print Assumptions C77_contains.

(** Non-vacuity.  The callback that edits attributes does what Go allows and never panics by itself ... *)
Lemma editing_reaches e n k (h h' : heap) r : typed (nth_error h) -> node_typed (nth_error h) n -> run (editing e n k) h = (h', r) -> reaches h h' /\ exists a, r = Ok a.
Proof.
  intros T N E. destruct n as [f|[[p|]|?|?| |?]|?|?]; try (inversion E; subst; split; [constructor|eauto]; fail).
  destruct N as [N|[]]. destruct (N p eq_refl) as [c G]. cbn [editing] in E. rewrite (mbind_ok _ _ _ _ _ (sexpr_run _ _ _ G)) in E.
  assert (L : p < List.length h) by (apply nth_error_Some; congruence). rewrite (mbind_ok _ _ _ _ _ (store_ok _ _ _ L)) in E. inversion E; subst. split; [|eauto].
  replace (put p (CSExpr (edit_struct e c)) h) with (write p (CSExpr (edit_struct e c)) h) by (unfold write; rewrite (proj2 (Nat.ltb_lt _ _) L); reflexivity).
  apply (reaches_assign h h p (CSExpr c)); [constructor|exact G| |exact I]. destruct (T _ _ G) as (O & X & Y & Z). cbn. split; [exact O|]. split; [|split; [|exact Z]].
  - destruct (a_auxint (e (h_attrs_of c))); [exact X|discriminate].
  - destruct (a_aux (e (h_attrs_of c))); [exact Y|discriminate].
Qed.
(** ... also in a file with a rule whose left side is an argument of itself, where it changes the type, and the stack runs
    out; and past a nil pointer, which it leaves as it was.  One that counts gets through the shared nodes of C30. *)
Example C77_nonempty :
  typed (nth_error knot_heap) /\ node_typed (nth_error knot_heap) (HFile (Some 4)) /\
  (exists h', run (h_Inspect (editing ex_set) 9 (HFile (Some 4)) 0) knot_heap = (h', Panic stack_overflow) /\ type_at h' 0 = Some (str "UInt8") /\ typed (nth_error h') /\ reaches knot_heap h') /\
  (let count (_ : unit) (_ : hnode) k := ret (Some tt, S k) in
   (forall v n s, exists v' s', run (count v n s) knot_heap = (knot_heap, Ok (Some v', s'))) /\
   run (h_Walk count 9 tt (HFile (Some 4)) 0) knot_heap = (knot_heap, Panic stack_overflow) /\
   run (h_Walk count 9 tt (HWord (WRule (Some 4))) 0) nil_heap = (nil_heap, Panic nil_deref) /\
   typed (nth_error ex_heap) /\ rule_word (nth_error ex_heap) (WRule (Some 5)) /\ clear_sides (nth_error ex_heap) 3 (WRule (Some 5)) /\
   snd (run (h_Walk count 2 tt (HWord (WRule (Some 5))) 0) ex_heap) = Panic stack_overflow).
Proof.
  pose proof C70_nonempty as (Te & Tn & Tk & _). split; [exact Tk|]. split; [intros p [= <-]; eexists; reflexivity|]. split.
  - destruct (run (h_Inspect (editing ex_set) 9 (HFile (Some 4)) 0) knot_heap) as [h' r] eqn:E. exists h'.
    destruct (C77_inspect nat (editing ex_set)) with (fuel := 9) (n := HFile (Some 4)) (s := 0) (h := knot_heap) (h' := h') (r := r) as (R & T' & _); [|exact Tk|intros p [= <-]; eexists; reflexivity|exact E|].
    { intros n s h1 h2 r0 T0 N0 E0. exact (proj1 (editing_reaches _ _ _ _ _ _ T0 N0 E0)). }
    split; [|split; [|auto]]; vm_compute in E; inversion E; subst; reflexivity.
  - intros count. assert (Gc : forall h v n s, exists v' s', run (count v n s) h = (h, Ok (Some v', s'))) by (intros h v n s; eexists _, _; reflexivity).
    split; [exact (Gc _)|]. split; [vm_compute; reflexivity|]. split; [vm_compute; reflexivity|]. split; [exact Te|]. split; [intros a [= <-]; eexists; reflexivity|]. split; [|vm_compute; reflexivity].
    destruct (C77_whole unit nat count ex_heap 3 tt 0 Te (Gc _)) as (_ & Wr & _). destruct (Wr (WRule (Some 5))) as (r & E & D); [intros a [= <-]; eexists; reflexivity|]. vm_compute in E. inversion E; subst. exact D.
Qed.
(** Is there a variable x? In the file whose rule's left side is an argument of itself the answer is never found; in the
    shared nodes of C30 it is yes; nothing there is a nil pointer. *)
Definition ex_is_x (n : hnode) : M bool := ret (match n with HWord (WVar x) => text_eqb x (str "x") | _ => false end).
Definition ex_is_nil (n : hnode) : M bool := ret (match n with HWord (WSExpr None) | HWord WNil => true | _ => false end).
Example C77_contains_example :
  (forall h n, exists b, run (ex_is_x n) h = (h, Ok b)) /\ (forall h n, exists b, run (ex_is_nil n) h = (h, Ok b)) /\
  run (h_Contains ex_is_x 9 (HFile (Some 4))) knot_heap = (knot_heap, Panic stack_overflow) /\
  run (h_Contains ex_is_x 9 (HFile (Some 7))) ex_heap = (ex_heap, Ok true) /\
  run (h_Contains ex_is_nil 9 (HFile (Some 7))) ex_heap = (ex_heap, Ok false) /\
  run (h_Contains ex_is_nil 9 (HWord (WRule (Some 4)))) nil_heap = (nil_heap, Ok true).
Proof. split; [intros; eexists; reflexivity|]. split; [intros; eexists; reflexivity|]. repeat split; vm_compute; reflexivity. Qed.
