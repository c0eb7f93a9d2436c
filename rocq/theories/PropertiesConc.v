(** Property C60: goroutines that parse, expand, test and print files with common nodes at the same time. *)
From Verif Require Import Text GoAst Ast Walk Expand Printer Smt GoParser Parse Heap HeapWalk HeapPrint HeapParse SpecHeap SpecFresh Conc SpecConc.
From Verif Require Import HeapFacts HeapWalkFacts HeapPrintFacts HeapParseFacts FreshDump ConcFacts ConcAlone ConcRun PropertiesHeap.
From Coq Require Import Arith Lia.
Open Scope nat_scope.
Open Scope list_scope.

(** *** C60: parsing, ExpandAlternates, the feature tests, printing and Generate can run at the same time

    Any number of goroutines, each calling pass.ExpandAlternates on a file of its own,
    one of the rules.Has* tests or smt2.Generate on some rule, printer.Bytes on a rule, a value
    or a file that is not being expanded, parse.Reader on some bytes, or parsing, expanding and printing one
    file after the other; the files and rules may share nodes, arrays and
    spare capacity as they like.  [schedule (map start cs, h) tr (gs, h')]: after the accesses
    [tr], in an order picked by any scheduler, the goroutines are [gs] and the memory is [h']. *)

(** No goroutine ever touches what another one writes. *)
Theorem C60_no_data_race :
  forall h cs tr gs h', closed h -> calls_ok h cs -> schedule (map start cs, h) tr (gs, h') -> ~ race tr.
Proof.
  intros h cs tr gs h' C K S (i & j & a & b & Ia & Ib & N & Ch & E).
  destruct (all_schedule h cs _ _ _ S [] (all_start h cs C K)) as (_ & _ & ws & _ & D & _ & _ & T & _). cbn [app] in T.
  destruct (T _ _ Ia) as (Li & _ & Oa). destruct (T _ _ Ib) as (Lj & Sb & _). apply (D i j (address a) Li Lj N (Oa Ch)). rewrite E. exact Sb.
Qed.
Print Assumptions C60_no_data_race.

(** At every moment, all memory is as it was but for the files being expanded and new cells;
    so everyone else may go on reading, walking or printing the common nodes. *)
Theorem C60_common_memory_unchanged :
  forall h cs tr gs h', closed h -> calls_ok h cs -> schedule (map start cs, h) tr (gs, h') ->
    forall p c, nth_error h p = Some c -> ~ In p (List.concat (map expands cs)) -> nth_error h' p = Some c.
Proof.
  intros h cs tr gs h' C K S. destruct (all_schedule h cs _ _ _ S [] (all_start h cs C K)) as (_ & _ & ws & _ & _ & _ & _ & _ & U & _). exact U.
Qed.
Print Assumptions C60_common_memory_unchanged.

(** A goroutine that is done has returned, and left in its file, what it would have alone:
    the error or the expanded tree of Expand.v, to which C21-C29 apply. *)
Theorem C60_expansions_do_not_interfere :
  forall h cs tr gs h', closed h -> calls_ok h cs -> schedule (map start cs, h) tr (gs, h') ->
    forall i spare fuel f r F,
      nth_error cs i = Some (CallExpand spare fuel f) -> nth_error gs i = Some (Done r) ->
      file_at (nth_error h) f F -> file_height F <= fuel ->
      match ExpandAlternates F with
      | Ok (F', None) => r = Ok Returned /\ file_at (nth_error h') f F'
      | Ok (F', Some e) => r = Err e /\ file_at (nth_error h') f F'
      | Err e => False
      | Panic m => r = Panic m /\ file_at (nth_error h') f F
      end.
Proof.
  intros h cs tr gs h' C K S i spare fuel f r F Ec Eg At Hf.
  destruct (all_schedule h cs _ _ _ S [] (all_start h cs C K)) as (_ & _ & ws & A & _ & _ & Fs & _ & _). cbn [fst snd] in A.
  specialize (A _ _ _ Eg Ec). destruct (alone_done _ _ _ _ _ A) as (h1 & s1 & R & Rr & Ag & Pl).
  pose proof (Fs _ _ f Ec (or_introl eq_refl)) as Sf. pose proof (expand_ok spare fuel f h F At Hf) as X. cbn [start] in R.
  destruct (ExpandAlternates F) as [[F' [e|]]|e|m]; [| |exact X|]; destruct X as (h2 & X & At'); rewrite run_bind, X in R; inversion R; subst; (split; [apply (rrel_same _ _ _ Rr); discriminate|exact (carry_file _ _ _ Ag _ _ _ Sf At')]).
Qed.
Print Assumptions C60_expansions_do_not_interfere.

(** The tests answer about the rule as it was. *)
Theorem C60_tests_do_not_notice :
  forall h cs tr gs h', closed h -> calls_ok h cs -> schedule (map start cs, h) tr (gs, h') ->
    forall i x fuel p r t,
      nth_error cs i = Some (CallHas x fuel p) -> nth_error gs i = Some (Done r) ->
      rule_at (nth_error h) (WRule (Some p)) t -> rule_height t <= fuel ->
      match has x t with Ok b => r = Ok (Answered b) | Err e => False | Panic m => r = Panic m end.
Proof.
  intros h cs tr gs h' C K S i x fuel p r t Ec Eg At Hf.
  destruct (all_schedule h cs _ _ _ S [] (all_start h cs C K)) as (_ & _ & ws & A & _). cbn [fst snd] in A.
  specialize (A _ _ _ Eg Ec). destruct (alone_done _ _ _ _ _ A) as (h1 & s1 & R & Rr & Ag & Pl). cbn [start] in R.
  rewrite run_bind, (has_ok x fuel (nth_error h) h p t Hf (sub_refl _) At) in R.
  assert (E : forall e, has x t <> Err e).
  { intros e. rewrite has_contains. unfold contains, contains_eff. destruct (inspect _ _ _); discriminate. }
  destruct (has x t) as [b|e|m]; [|destruct (E e eq_refl)|]; inversion R; subst; apply (rrel_same _ _ _ Rr); discriminate.
Qed.
Print Assumptions C60_tests_do_not_notice.

(** Printing gives the text of the file, rule or value as it was. *)
Theorem C60_printing_does_not_notice :
  forall h cs tr gs h', closed h -> calls_ok h cs -> schedule (map start cs, h) tr (gs, h') ->
    forall i fuel n r t,
      nth_error cs i = Some (CallPrint fuel n) -> nth_error gs i = Some (Done r) ->
      match n, t with
      | PFile q, NFile F => exists f, q = Some f /\ file_at (nth_error h) f F /\ file_height F <= fuel
      | PWord w, NRule R => rule_at (nth_error h) w R /\ rule_height R <= fuel
      | PWord w, t => exists v, t = node_of_value v /\ value_at (nth_error h) w v /\ height v <= fuel
      | _, _ => False
      end ->
      match Bytes t with Ok b => r = Ok (Wrote b) | Err e => r = Err e | Panic m => r = Panic m end.
Proof.
  intros h cs tr gs h' C K S i fuel n r t Ec Eg At.
  destruct (all_schedule h cs _ _ _ S [] (all_start h cs C K)) as (_ & _ & ws & A & _). cbn [fst snd] in A.
  specialize (A _ _ _ Eg Ec). destruct (alone_done _ _ _ _ _ A) as (h1 & s1 & R & Rr & Ag & Pl). cbn [start] in R.
  assert (B : hp_Bytes fuel n h = (h, Bytes t)).
  { apply Bytes_of. intros w. destruct n as [q|x].
    - destruct t; try contradiction. destruct At as (a & -> & At & Hf). exact (Fprint_file _ _ h (sub_refl _) _ _ _ _ Hf At).
    - assert (V : forall v, value_at (nth_error h) x v -> height v <= fuel -> hp_Fprint buf_write fuel w (PWord x) h = (h, Ok (Fprint buf_write w (node_of_value v)))).
      { intros v V Hv. exact (Fprint_value _ _ h (sub_refl _) _ _ _ _ Hv V). }
      destruct t; try (destruct At as (v & -> & At & Hv); exact (V _ At Hv)).
      destruct At as [At Hr]. pose proof At as (q & c & -> & _). exact (Fprint_rule _ _ h (sub_refl _) _ _ _ _ Hr At). }
  rewrite run_bind, B in R. destruct (Bytes t); inversion R; subst; apply (rrel_same _ _ _ Rr); discriminate.
Qed.
Print Assumptions C60_printing_does_not_notice.

(** Generate gives the script, or the error, of the rule as it was. *)
Theorem C60_generating_does_not_notice :
  forall h cs tr gs h', closed h -> calls_ok h cs -> schedule (map start cs, h) tr (gs, h') ->
    forall i fuel p r t,
      nth_error cs i = Some (CallGenerate fuel p) -> nth_error gs i = Some (Done r) ->
      rule_at (nth_error h) (WRule (Some p)) t -> rule_height t <= fuel ->
      match Generate t with Ok b => r = Ok (Wrote b) | Err e => r = Err e | Panic m => r = Panic m end.
Proof.
  intros h cs tr gs h' C K S i fuel p r t Ec Eg At Hf.
  destruct (all_schedule h cs _ _ _ S [] (all_start h cs C K)) as (_ & _ & ws & A & _). cbn [fst snd] in A.
  specialize (A _ _ _ Eg Ec). destruct (alone_done _ _ _ _ _ A) as (h1 & s1 & R & Rr & Ag & Pl). cbn [start] in R.
  rewrite run_bind, (Generate_ok (nth_error h) h (sub_refl _) _ _ _ Hf At) in R. destruct (Generate t); inversion R; subst; apply (rrel_same _ _ _ Rr); discriminate.
Qed.
Print Assumptions C60_generating_does_not_notice.

(** A goroutine that has parsed a file has its tree in memory, in cells of its own (C67), or it has
    the error of the tree parser. *)
Theorem C60_parsing_does_not_notice :
  forall h cs tr gs h', closed h -> calls_ok h cs -> schedule (map start cs, h) tr (gs, h') ->
    forall i gp spare filename data r,
      nth_error cs i = Some (CallParse gp spare filename data) -> nth_error gs i = Some (Done r) ->
      match Parse gp filename data with
      | Ok F => exists p cells, r = Ok (Parsed p) /\ file_at (nth_error h') p F /\
          file_cells (nth_error h') p cells /\ NoDup cells /\ (forall a, In a cells -> nth_error h a = None)
      | Err e => r = Err e
      | Panic m => r = Panic m
      end.
Proof.
  intros h cs tr gs h' C K S i gp spare filename data r Ec Eg.
  destruct (all_schedule h cs _ _ _ S [] (all_start h cs C K)) as (_ & _ & ws & A & _ & Ow & _). cbn [fst snd] in A.
  specialize (A _ _ _ Eg Ec). destruct (alone_done _ _ _ _ _ A) as (h1 & s1 & R & Rr & Ag & Pl). cbn [start] in R.
  destruct (parse_fresh gp spare filename data h) as (h2 & o & X & Kp & Y). rewrite run_bind, X in R.
  destruct (Parse gp filename data) as [F|e|m]; [|subst o; inversion R; subst; apply (rrel_same _ _ _ Rr); discriminate..].
  destruct Y as (p & c & -> & At & Ce & N & B). inversion R; subst. destruct r as [[| | |q]|e|e]; cbn in Rr; try contradiction; try discriminate.
  destruct (carry_file_cells _ _ _ Ag _ _ _ Rr Ce) as (d & Cd & M). exists q, d. split; [reflexivity|]. split; [exact (carry_file _ _ _ Ag _ _ _ Rr At)|]. split; [exact Cd|].
  split; [exact (moved_nodup _ _ _ Ag _ _ M N)|]. intros b Ib. destruct (moved_in _ _ _ _ M Ib) as (a & Ia & Sa). apply nth_error_None.
  rewrite Forall_forall in B. destruct (B _ Ia) as [La _]. destruct Pl as [_ Pl]. destruct (Pl _ _ Sa) as [[_ Lb]|[_ O]]; [lia|].
  destruct (Ow _ _ b Ec) as [[]|Lb]; [exists a; exact O|exact Lb].
Qed.
Print Assumptions C60_parsing_does_not_notice.

(** Files parsed at the same time have no memory in common. *)
Theorem C60_parsed_files_are_apart :
  forall h cs tr gs h', closed h -> calls_ok h cs -> schedule (map start cs, h) tr (gs, h') ->
    forall i j gp spare filename data gp' spare' filename' data' p q cells cells',
      nth_error cs i = Some (CallParse gp spare filename data) -> nth_error gs i = Some (Done (Ok (Parsed p))) ->
      nth_error cs j = Some (CallParse gp' spare' filename' data') -> nth_error gs j = Some (Done (Ok (Parsed q))) ->
      i <> j -> file_cells (nth_error h') p cells -> file_cells (nth_error h') q cells' ->
      forall a, In a cells -> ~ In a cells'.
Proof.
  intros h cs tr gs h' C K S i j gp spare fn data gp' spare' fn' data' p q cells cells' Ec Eg Ec' Eg' N Cp Cq a Ia Ia'.
  destruct (all_schedule h cs _ _ _ S [] (all_start h cs C K)) as (_ & _ & ws & A & D & Ow & _). cbn [fst snd] in A.
  assert (Z : forall i gp spare fn data p cells, nth_error cs i = Some (CallParse gp spare fn data) -> nth_error gs i = Some (Done (Ok (Parsed p))) ->
    file_cells (nth_error h') p cells -> forall b, In b cells -> owns (ws i) b /\ sees (ws i) b).
  { clear -A. intros i gp spare fn data p cells Ec Eg Cp b Ib. specialize (A _ _ _ Eg Ec). destruct (alone_done _ _ _ _ _ A) as (h1 & s1 & R & Rr & Ag & Pl). cbn [start] in R.
    destruct (parse_fresh gp spare fn data h) as (h2 & o & X & Kp & Y). rewrite run_bind, X in R.
    destruct (Parse gp fn data) as [F|e|m]; [|subst o; inversion R; subst; contradiction..].
    destruct Y as (p' & c & -> & At & Ce & N & B). inversion R; subst. cbn in Rr. destruct (carry_file_cells _ _ _ Ag _ _ _ Rr Ce) as (d & Cd & M).
    rewrite (file_cells_fun _ _ _ _ Cp Cd) in Ib. destruct (moved_in _ _ _ _ M Ib) as (a & Ia & Sa). rewrite Forall_forall in B. destruct (B _ Ia) as [La _].
    destruct Pl as [_ Pl]. destruct (Pl _ _ Sa) as [[_ Lb]|[_ O]]; [lia|]. split; exists a; assumption. }
  destruct (Z _ _ _ _ _ _ _ Ec Eg Cp a Ia) as [O _]. destruct (Z _ _ _ _ _ _ _ Ec' Eg' Cq a Ia') as [_ Sj].
  apply (D i j a); auto; apply nth_error_Some; congruence.
Qed.
Print Assumptions C60_parsed_files_are_apart.

(** A goroutine that parses a file, expands and prints it gives the text that it would give alone, or the
    first error; to which C50, for one, applies. *)
Theorem C60_processing_does_not_notice :
  forall h cs tr gs h', closed h -> calls_ok h cs -> schedule (map start cs, h) tr (gs, h') ->
    forall i gp spare fuel filename data r,
      nth_error cs i = Some (CallProcess gp spare fuel filename data) -> nth_error gs i = Some (Done r) ->
      match Parse gp filename data with
      | Ok F => file_height F <= fuel ->
          match ExpandAlternates F with
          | Ok (F', None) => file_height F' <= fuel ->
              match Bytes (NFile F') with Ok b => r = Ok (Wrote b) | Err e => r = Err e | Panic m => r = Panic m end
          | Ok (_, Some e) => r = Err e
          | Err e => False
          | Panic m => r = Panic m
          end
      | Err e => r = Err e
      | Panic m => r = Panic m
      end.
Proof.
  intros h cs tr gs h' C K S i gp spare fuel filename data r Ec Eg.
  destruct (all_schedule h cs _ _ _ S [] (all_start h cs C K)) as (_ & _ & ws & A & _). cbn [fst snd] in A.
  specialize (A _ _ _ Eg Ec). destruct (alone_done _ _ _ _ _ A) as (h1 & s1 & R & Rr & _). cbn [start] in R.
  destruct (parse_fresh gp spare filename data h) as (h2 & o & X & Kp & Y). rewrite run_bind, X in R.
  destruct (Parse gp filename data) as [F|e|m]; [|subst o; inversion R; subst; apply (rrel_same _ _ _ Rr); discriminate..].
  intros Hf. destruct Y as (p & c & -> & At & _). rewrite run_bind in R. pose proof (expand_ok spare fuel p h2 F At Hf) as Z.
  destruct (ExpandAlternates F) as [[F' [e|]]|e|m]; [| |exact Z|]; destruct Z as (h3 & Z & At'); rewrite Z in R; try (inversion R; subst; apply (rrel_same _ _ _ Rr); discriminate).
  intros Hf'. assert (B : hp_Bytes fuel (PFile (Some p)) h3 = (h3, Bytes (NFile F'))) by (apply Bytes_of; intros w; exact (Fprint_file _ _ h3 (sub_refl _) _ _ _ _ Hf' At')).
  rewrite run_bind, B in R. destruct (Bytes (NFile F')); inversion R; subst; apply (rrel_same _ _ _ Rr); discriminate.
Qed.
Print Assumptions C60_processing_does_not_notice.

(** Afterwards memory is again as the theorems ask for, every call that made sense still does, and so do calls
    on the files that were parsed; so these theorems apply to one round of goroutines after the other, starting from
    no memory at all. *)
Theorem C60_next_round :
  closed [] /\
  forall h cs tr gs h', closed h -> calls_ok h cs -> schedule (map start cs, h) tr (gs, h') ->
    closed h' /\ (forall c, call_ok h c -> call_ok h' c) /\
    (forall i f, nth_error gs i = Some (Done (Ok (Parsed f))) ->
       (forall spare fuel, call_ok h' (CallExpand spare fuel f)) /\ (forall fuel, call_ok h' (CallPrint fuel (PFile (Some f)))) /\
       (forall sl ws p, nth_error h' f = Some (CFile sl) -> slice_at (nth_error h') sl ws -> In (WRule (Some p)) ws ->
          (forall x fuel, call_ok h' (CallHas x fuel p)) /\ (forall fuel, call_ok h' (CallGenerate fuel p)))).
Proof.
  split; [intros a c p E; destruct a; discriminate|]. intros h cs tr gs h' C K S.
  destruct (all_schedule h cs _ _ _ S [] (all_start h cs C K)) as (Lg & _ & ws & A & _ & _ & _ & _ & _ & Cl & Kd). cbn [fst snd] in *.
  assert (Kf : forall f sl, nth_error h f = Some (CFile sl) -> exists sl', nth_error h' f = Some (CFile sl')).
  { intros f sl E. destruct (Kd _ _ E) as (d & Ed & I). destruct d; cbn in I; try (exfalso; tauto). eauto. }
  assert (Kn : forall p, (exists c, nth_error h p = Some c /\ ~ is_file c) -> exists c, nth_error h' p = Some c /\ ~ is_file c).
  { intros p (c & E & N). destruct (Kd _ _ E) as (d & Ed & I). exists d. split; [exact Ed|tauto]. }
  split; [exact Cl|]. split.
  - intros c Kc. destruct c as [spare fuel f|x fuel r|fuel [q|w]|fuel r| |]; cbn in *; auto.
    + destruct Kc as (sl & E). eauto.
    + intros f E. destruct (Kc f E) as (sl & X). eauto.
  - intros i f Eg. destruct (nth_error cs i) as [c|] eqn:Ec; [|apply nth_error_None in Ec; assert (i < List.length gs) by (apply nth_error_Some; congruence); lia].
    specialize (A _ _ _ Eg Ec). destruct (alone_done _ _ _ _ _ A) as (h1 & s1 & _ & Rr & (_ & B & _) & _).
    destruct s1 as [[| | |q]|e|e]; cbn in Rr; try contradiction; try discriminate. destruct (B _ _ Rr) as (s & t & _ & E & _). cbn [call_ok].
    split; [eauto|]. split; [intros _ g [= <-]; eauto|]. intros sl xs p Ef [Sl [->|(a & b & Ea & La)]] Ip; [contradiction|].
    assert (Z : exists c, nth_error h' p = Some c /\ ~ is_file c).
    { apply (Cl _ _ p Ea). cbn. exists (WRule (Some p)). split; [|reflexivity]. rewrite !in_app_iff. tauto. }
    split; intros; exact Z.
Qed.
Print Assumptions C60_next_round.

(** No schedule goes on forever, and none gets stuck: from every state a few more accesses
    make all goroutines done. *)
Theorem C60_every_schedule_ends :
  (forall s : nat -> list goroutine * heap, ~ forall n, exists a, schedule (s n) [a] (s (S n))) /\
  (forall s, exists tr s', schedule s tr s' /\ Forall (fun g => exists r, g = Done r) (fst s')) /\
  (forall gs h, (forall i a gs' h', ~ schedule (gs, h) [(i, a)] (gs', h')) -> Forall (fun g => exists r, g = Done r) gs).
Proof.
  split; [|split].
  - intros s H. assert (X : forall t, Acc next t -> forall n, s n <> t).
    { intros t At. induction At as [t _ IH]. intros n E. apply (IH (s (S n))) with (n := S n); [|reflexivity]. rewrite <- E. exact (H n). }
    exact (X (s 0) (schedules_end (s 0)) 0 eq_refl).
  - exact can_finish.
  - intros gs h N. destruct (can_finish (gs, h)) as (tr & s' & Sc & D). inversion Sc as [s|gs0 h0 i g a g' h' tr' s Eg St Sc']; subst; [exact D|].
    destruct (N i a (with_nth gs i g') h'). econstructor; [exact Eg|exact St|constructor].
Qed.
Print Assumptions C60_every_schedule_ends.

(** Schedules by computation. *)
Definition step_fun (g : goroutine) (h : heap) : option (access * goroutine * heap) :=
  match g with
  | Done _ => None
  | Load p k => Some (Reads p, k (nth_error h p), h)
  | New c k => Some (Allocates (List.length h), k (List.length h), h ++ [c])
  | Store p c k => Some (Writes p, k, write p c h)
  end.
Fixpoint play (is : list nat) (s : list goroutine * heap) : list (nat * access) * (list goroutine * heap) :=
  match is with
  | [] => ([], s)
  | i :: is' =>
      match nth_error (fst s) i with
      | Some g => match step_fun g (snd s) with
                  | Some (a, g', h') => let '(tr, s') := play is' (with_nth (fst s) i g', h') in ((i, a) :: tr, s')
                  | None => play is' s
                  end
      | None => play is' s
      end
  end.
Lemma play_schedule is : forall s, schedule s (fst (play is s)) (snd (play is s)).
Proof.
  induction is as [|i is IH]; intros [gs h]; [constructor|]. cbn [play fst snd]. destruct (nth_error gs i) as [g|] eqn:E; [|apply IH].
  destruct (step_fun g h) as [[[a g'] h']|] eqn:T; [|apply IH]. specialize (IH (with_nth gs i g', h')). destruct (play is _) as [tr s']. cbn [fst snd] in *.
  econstructor; [exact E| |exact IH]. destruct g; inversion T; subst; constructor.
Qed.

(** The hypotheses are met, with the heap of C30 (two files in one array, shared nodes): two
    expansions, a test, a rule being printed, one given to Generate (which refuses its
    alternates), two files being parsed and one being parsed, expanded and printed, taking turns to the end. *)
Definition conc_src : text := str "(Neg(8|16) x) => (Add(8|16) x y)".
Definition ex_calls : list call := [CallExpand (fun _ _ => 3) 9 7; CallExpand (fun _ n => n) 9 8; CallHas FBinding 9 5; CallPrint 9 (PWord (WRule (Some 5))); CallGenerate 9 5;
   CallParse ParseExpr (fun _ _ => 1) (str "f") conc_src; CallParse ParseExpr (fun _ _ => 0) (str "g") conc_src; CallProcess ParseExpr (fun _ _ => 2) 9 (str "h") conc_src].
Definition ex_answers : list goroutine :=
  [Done (Ok Returned); Done (Ok Returned); Done (Ok (Answered false));
   Done (Ok (Wrote (str "(Add(8|16) x (Neg x)) => (Add(8|16) x (Neg x))"))); Done (Err (str "unexpanded opcode"));
   Done (Ok (Parsed 38)); Done (Ok (Parsed 39));
   Done (Ok (Wrote (str "(Neg8 x) => (Add8 x y)" ++ ["010"%char] ++ str "(Neg16 x) => (Add16 x y)" ++ ["010"%char])))].
Definition turns (n : nat) : list nat := List.concat (repeat [0; 1; 2; 3; 4; 5; 6; 7] n).
Example C60_nonempty :
  closed ex_heap /\ calls_ok ex_heap ex_calls /\
  exists tr h', schedule (map start ex_calls, ex_heap) tr (ex_answers, h') /\
    400 < List.length tr /\ (exists F7, file_at (nth_error h') 7 F7 /\ List.length (f_rules F7) = 2) /\ (exists F8, file_at (nth_error h') 8 F8 /\ List.length (f_rules F8) = 4) /\
    (exists F, file_at (nth_error h') 38 F /\ file_at (nth_error h') 39 F /\ List.length (f_rules F) = 1).
Proof.
  assert (C : closed ex_heap).
  { intros a c p E P. apply nth_error_In in E. cbn in E. repeat (destruct E as [<-|E]; [cbn in P|]); [..|contradiction].
    all: repeat match goal with
         | H : _ \/ _ |- _ => destruct H
         | H : exists _, _ |- _ => destruct H
         | H : _ /\ _ |- _ => destruct H
         | H : slice_points _ _ |- _ => destruct H as [_ H]; cbn in H
         | H : In _ _ |- _ => cbn in H
         | H : False |- _ => contradiction
         | H : HParts _ = HParts _ |- _ => inversion H; clear H
         | H : _ = ?x |- _ => is_var x; subst x; cbn in *
         | H : Some _ = Some _ |- _ => inversion H; clear H
         end; subst; cbn in *; try discriminate; try contradiction.
    all: try (eexists; split; [reflexivity|cbn; tauto]).
    all: repeat match goal with H : Some _ = Some _ |- _ => inversion H; clear H; subst end; eexists; split; [reflexivity|cbn; tauto]. }
  assert (K : calls_ok ex_heap ex_calls).
  { split; [|split; [cbn; repeat constructor; cbn; intuition discriminate|intros f []]]. repeat constructor; cbn; try (eexists; reflexivity); try (eexists; split; [reflexivity|cbn; tauto]).
    intros p [= <-]. eexists. split; [reflexivity|cbn; tauto]. }
  split; [exact C|]. split; [exact K|].
  assert (G : fst (snd (play (turns 200) (map start ex_calls, ex_heap))) = ex_answers) by (vm_compute; reflexivity).
  assert (L : (400 <? List.length (fst (play (turns 200) (map start ex_calls, ex_heap)))) = true) by (vm_compute; reflexivity). apply Nat.ltb_lt in L.
  pose proof (play_schedule (turns 200) (map start ex_calls, ex_heap)) as S. destruct (play (turns 200) (map start ex_calls, ex_heap)) as [tr [gs h']]. cbn [fst snd] in S, G, L.
  subst gs. exists tr, h'. split; [exact S|]. split; [exact L|]. destruct C30_nonempty as (F7 & F8 & _).
  split; [|split].
  - assert (E : exists F', ExpandAlternates {| f_rules := [ex_tree] |} = Ok (F', None) /\ List.length (f_rules F') = 2) by (eexists; split; [vm_compute; reflexivity|reflexivity]).
    destruct E as (F' & E & N). pose proof (C60_expansions_do_not_interfere _ _ _ _ _ C K S 0 _ _ _ _ _ eq_refl eq_refl F7 ltac:(vm_compute; lia)) as X. rewrite E in X. exists F'. split; [apply X|exact N].
  - assert (E : exists F', ExpandAlternates {| f_rules := [ex_tree; ex_tree] |} = Ok (F', None) /\ List.length (f_rules F') = 4) by (eexists; split; [vm_compute; reflexivity|reflexivity]).
    destruct E as (F' & E & N). pose proof (C60_expansions_do_not_interfere _ _ _ _ _ C K S 1 _ _ _ _ _ eq_refl eq_refl F8 ltac:(vm_compute; lia)) as X. rewrite E in X. exists F'. split; [apply X|exact N].
  - assert (E : forall n, exists F, Parse ParseExpr n conc_src = Ok F /\ List.length (f_rules F) = 1).
    { intros n. eexists. split; [vm_compute; reflexivity|reflexivity]. }
    assert (E2 : Parse ParseExpr (str "f") conc_src = Parse ParseExpr (str "g") conc_src) by (vm_compute; reflexivity).
    destruct (E (str "f")) as (F & E1 & N). rewrite E1 in E2. symmetry in E2. exists F.
    pose proof (C60_parsing_does_not_notice _ _ _ _ _ C K S 5 _ _ _ _ _ eq_refl eq_refl) as X. rewrite E1 in X. destruct X as (p & cells & [= <-] & X & _).
    pose proof (C60_parsing_does_not_notice _ _ _ _ _ C K S 6 _ _ _ _ _ eq_refl eq_refl) as Y. rewrite E2 in Y. destruct Y as (p & cells' & [= <-] & Y & _). auto.
Qed.

(** Expanding one file from two goroutines is a race: each needs a file of its own. *)
Theorem C60_same_file_refuted :
  exists h cs, closed h /\ Forall (call_ok h) cs /\ exists tr s, schedule (map start cs, h) tr s /\ race tr.
Proof.
  exists ex_heap, [CallExpand (fun _ _ => 3) 9 7; CallExpand (fun _ _ => 3) 9 7]. destruct C60_nonempty as (C & _). split; [exact C|]. split.
  - repeat constructor; cbn; eexists; reflexivity.
  - pose (go := play (repeat 0 200 ++ [1]) (map start [CallExpand (fun _ _ => 3) 9 7; CallExpand (fun _ _ => 3) 9 7], ex_heap)).
    assert (W : existsb (fun x => match x with (0, Writes 7) => true | _ => false end) (fst go) = true) by (vm_compute; reflexivity).
    assert (R : existsb (fun x => match x with (1, Reads 7) => true | _ => false end) (fst go) = true) by (vm_compute; reflexivity).
    pose proof (play_schedule _ _ : schedule _ (fst go) (snd go)) as S. clearbody go. exists (fst go), (snd go). split; [exact S|]. apply existsb_exists in W, R. destruct W as ([i a] & Ia & Wa), R as ([j b] & Ib & Rb).
    exists 0, 1, (Writes 7), (Reads 7).
    assert (X : i = 0 /\ a = Writes 7) by (destruct i as [|i]; [|discriminate]; destruct a as [p|p|p]; try discriminate; do 8 (destruct p as [|p]; try discriminate); auto).
    assert (Y : j = 1 /\ b = Reads 7) by (destruct j as [|[|j]]; try discriminate; destruct b as [p|p|p]; try discriminate; do 8 (destruct p as [|p]; try discriminate); auto).
    destruct X as [-> ->], Y as [-> ->]. split; [exact Ia|]. split; [exact Ib|]. split; [discriminate|]. split; [exact I|reflexivity].
Qed.
Print Assumptions C60_same_file_refuted.
