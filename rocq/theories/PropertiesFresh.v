(** Property C67: what the parser makes of memory. *)
From Verif Require Import Text GoAst Ast Expand Utf8 GoExpr Peg Grammar Parse GoParser Printer Dump Heap HeapDump HeapPrint HeapParse.
From Verif Require Import SpecHeap SpecFresh SpecDump SpecShare HeapFacts HeapPrintFacts HeapParseFacts FreshDump PropertiesHeap PropertiesHeapPrint PropertiesParse PropertiesShare.
From Coq Require Import Arith Lia NArith.
Open Scope nat_scope.
Open Scope list_scope.

(** *** C67: a parsed file is made of new memory, and no part of it is used twice

    [h_Parse] is the parser with pointers and slices (HeapParse.v), [Parse] the one on trees (Parse.v), to which
    C01-C16 apply.  [gp] is go/parser.ParseExpr, [spare] how much append over-allocates; the theorems hold for all
    of them.  The cells of [file_cells] (SpecFresh.v) are all the memory that can be reached from the file, each
    once for every way of reaching it. *)
Theorem C67_fresh :
  forall gp spare filename data (h h' : heap) r,
    h_Parse gp spare filename data h = (h', r) ->
    (forall a c, nth_error h a = Some c -> nth_error h' a = Some c) /\
    match Parse gp filename data with
    | Ok f => exists p cells, r = Ok p /\ file_at (nth_error h') p f /\
        file_cells (nth_error h') p cells /\ NoDup cells /\ (forall a, In a cells -> nth_error h a = None)
    | Err e => r = Err e
    | Panic m => r = Panic m
    end.
Proof.
  intros gp spare filename data h h' r E. destruct (parse_fresh gp spare filename data h) as (h2 & r2 & E2 & K & P). rewrite E in E2. injection E2 as <- <-.
  split; [exact (keeps_sub _ _ K)|]. destruct (Parse gp filename data) as [f|e|m]; auto. destruct P as (p & c & -> & A & B & N & F).
  exists p, c. repeat split; auto. intros a Ha. rewrite Forall_forall in F. apply nth_error_None. apply F in Ha. lia.
Qed.
Print Assumptions C67_fresh.

(** That list is determined by the memory, so it is the same to say that every list of the cells is
    free of repetitions and new. *)
Theorem C67_cells_determined :
  forall g p cells cells', file_cells g p cells -> file_cells g p cells' -> cells = cells'.
Proof. intros g p c c'. apply file_cells_fun. Qed.
Print Assumptions C67_cells_determined.

(** Files parsed one after the other have no memory in common, and the first is as it was. *)
Theorem C67_two_files :
  forall gp spare filename data gp' spare' filename' data' (h h1 h2 : heap) p q f f',
    h_Parse gp spare filename data h = (h1, Ok p) -> h_Parse gp' spare' filename' data' h1 = (h2, Ok q) ->
    Parse gp filename data = Ok f -> Parse gp' filename' data' = Ok f' ->
    exists cs ds, file_at (nth_error h2) p f /\ file_at (nth_error h2) q f' /\
      file_cells (nth_error h2) p cs /\ file_cells (nth_error h2) q ds /\ NoDup (cs ++ ds).
Proof.
  intros gp spare fn data gp' spare' fn' data' h h1 h2 p q f f' E1 E2 P1 P2.
  destruct (parse_fresh gp spare fn data h) as (g1 & r1 & X1 & K1 & Y1). rewrite E1 in X1. injection X1 as <- <-. rewrite P1 in Y1. destruct Y1 as (p' & cs & Z & A & B & N & Fc). injection Z as <-.
  destruct (parse_fresh gp' spare' fn' data' h1) as (g2 & r2 & X2 & K2 & Y2). rewrite E2 in X2. injection X2 as <- <-. rewrite P2 in Y2. destruct Y2 as (q' & ds & Z & A' & B' & N' & F'). injection Z as <-.
  exists cs, ds. pose proof (keeps_sub _ _ K2) as Sb.
  split; [eapply file_at_mono; eauto|]. split; [exact A'|]. split; [eapply file_cells_mono; eauto|]. split; [exact B'|].
  apply once_NoDup. apply once_NoDup in N, N'. intros x. specialize (N x). specialize (N' x). rewrite cnt_app.
  destruct (Nat.eq_dec (count_occ Nat.eq_dec ds x) 0) as [Q|Q]; [lia|]. assert (In x ds) by (apply (count_occ_In Nat.eq_dec); lia).
  rewrite Forall_forall in F'. specialize (F' x H). assert (Hn : ~ In x cs); [|apply (count_occ_not_In Nat.eq_dec) in Hn; lia].
  intros Hx. rewrite Forall_forall in Fc. specialize (Fc x Hx). lia.
Qed.
Print Assumptions C67_two_files.

(** The dump of such a file has no references in it: it is the dump of the tree (C58). *)
Theorem C67_dump :
  forall wide_print other gp spare filename data (h h' : heap) p f fuel,
    h_Parse gp spare filename data h = (h', Ok p) -> Parse gp filename data = Ok f -> List.length h' < fuel ->
    h_Dump wide_print other (nth_error h') fuel (HFile (Some p)) = Dump wide_print other (NFile f).
Proof.
  intros wp other gp spare fn data h h' p f fuel E P L.
  destruct (parse_fresh gp spare fn data h) as (h2 & r2 & E2 & K & Y). rewrite E in E2. injection E2 as <- <-. rewrite P in Y. destruct Y as (p' & c & Z & A & B & N & _). injection Z as <-.
  destruct (file_heres wp _ _ _ _ A B) as (d & R & H). destruct (heres_first _ _ H N) as [M T].
  apply (C63_without_sharing wp other h' p f d fuel A); auto. cbn [plain_node]. apply C08_well_formed in P. rewrite Forall_forall in *. intros r Hr. destruct (P r Hr) as [_ S]. apply plain_of_exprs. exact S.
Qed.
Print Assumptions C67_dump.

(** Parsing, expanding and printing, all with pointers: the outcome is that of the trees, and what was in
    memory before is untouched. *)
Theorem C67_parse_expand_print :
  forall gp spare filename data (h : heap) f f' fuel,
    Parse gp filename data = Ok f -> ExpandAlternates f = Ok (f', None) -> file_height f <= fuel -> file_height f' <= fuel ->
    exists p h1 h2, h_Parse gp spare filename data h = (h1, Ok p) /\ h_ExpandAlternates spare fuel (Some p) h1 = (h2, Ok tt) /\
      hp_Bytes fuel (PFile (Some p)) h2 = (h2, Bytes (NFile f')) /\ (forall a c, nth_error h a = Some c -> nth_error h2 a = Some c).
Proof.
  intros gp spare fn data h f f' fuel P X L L'. destruct (parse_fresh gp spare fn data h) as (h1 & r & E & K & Y). rewrite P in Y. destruct Y as (p & c & -> & A & B & N & F).
  pose proof (C30_sharing_does_not_change_the_outcome spare fuel p h1 f A L) as O. rewrite X in O. destruct O as (h2 & E2 & A2).
  exists p, h1, h2. split; [exact E|]. split; [exact E2|]. split; [exact (proj1 (C66_after_expansion spare fuel p h1 h2 f f' None A L X E2 fuel L'))|].
  intros a x G. destruct (C30_only_the_rule_slice_is_replaced _ _ _ _ _ _ E2) as [Q _]. apply Q; [apply (keeps_sub _ _ K); exact G|]. intros Z. injection Z as <-.
  rewrite Forall_forall in F. destruct B as (sl & ws & css & _ & _ & _ & ->). specialize (F p (or_introl eq_refl)).
  assert (nth_error h p <> None) by congruence. apply nth_error_Some in H. lia.
Qed.
Print Assumptions C67_parse_expand_print.

(** A file parsed into a memory of nine cells: it takes ten more, and all are used. *)
Definition fresh_src : text := str "(Add(8|16) x (Neg <t> [1] x)) && c => @b x".
Example C67_nonempty : exists f h',
  Parse ParseExpr (str "f") fresh_src = Ok f /\ List.length (f_rules f) = 1 /\
  h_Parse ParseExpr (fun _ _ => 1) (str "f") fresh_src ex_heap = (h', Ok 18) /\
  List.length ex_heap = 9 /\ List.length h' = 19 /\ file_at (nth_error h') 18 f /\
  file_cells (nth_error h') 18 [18; 17; 16; 14; 9; 13; 12; 10; 11; 15] /\
  (exists f', ExpandAlternates f = Ok (f', None) /\ List.length (f_rules f') = 2) /\
  (exists q h2, h_Parse ParseExpr (fun _ _ => 0) (str "f") fresh_src h' = (h2, Ok q) /\ List.length h2 = 30).
Proof.
  eexists. eexists. split; [vm_compute; reflexivity|]. split; [reflexivity|]. split; [vm_compute; reflexivity|]. split; [reflexivity|]. split; [reflexivity|].
  assert (S1 : forall g sl ws pre post, g (sl_arr sl) = Some (CArr (pre ++ ws ++ post)) -> List.length pre = sl_off sl -> sl_len sl = List.length ws -> slice_at g sl ws)
    by (intros; split; [assumption|right; eauto]).
  split; [|split; [|split]].
  - eexists _, [_]. split; [reflexivity|]. split; [apply (S1 _ _ _ [] [WRule None]); reflexivity|]. repeat constructor. eexists _, _. split; [reflexivity|]. split; [reflexivity|]. cbn.
    split; [|split; [reflexivity|split; [reflexivity|constructor]]].
    eapply at_sexpr with (ws := [_; _]); try reflexivity; try exact I; [apply (S1 _ _ _ [] []); reflexivity|]. cbn. constructor; [constructor|]. constructor; [|constructor].
    eapply at_sexpr with (ws := [_]); try reflexivity; try exact I; [apply (S1 _ _ _ [] [WNil]); reflexivity|]. cbn. repeat constructor.
  - eexists _, [_], [_]. split; [reflexivity|]. split; [apply (S1 _ _ _ [] [WRule None]); reflexivity|]. split.
    + constructor; [|constructor]. eexists _, _, _, _. split; [reflexivity|]. split; [reflexivity|]. split; [|split; [constructor|reflexivity]].
      eapply vc_sexpr with (ws := [_; _]); [reflexivity|apply (S1 _ _ _ [] []); reflexivity|]. constructor; [constructor|]. constructor; [|constructor].
      eapply vc_sexpr with (ws := [_]); [reflexivity|apply (S1 _ _ _ [] [WNil]); reflexivity|]. repeat constructor.
    + reflexivity.
  - eexists. split; [vm_compute; reflexivity|reflexivity].
  - eexists _, _. split; [vm_compute; reflexivity|reflexivity].
Qed.
