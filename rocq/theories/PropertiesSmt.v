(** Properties of package smt2 (C36-C42).  Vocabulary: SpecSmt.v. *)
From Verif Require Import Text GoAst Ast Printer SpecPrint PrintFacts Smt SpecTree SpecSmt SmtArith SmtGen SmtRead SmtSem FeatureFacts.
From Coq Require Import Arith Bool ZArith Lia.

(** Witness:  (Sub32 (Add32 x y) x) => y  *)
Definition node2 (c : string) (a b : value) : value :=
  SExp (mkSExpr [] (Opcode (str c)) [] None None [a; b] false false).
Definition var (x : string) : value := Var (str x).
Definition ex_sub : rule :=
  mkRule (node2 "Sub32" (node2 "Add32" (var "x") (var "y")) (var "x")) None [] (var "y").
Definition line (s : string) : text := str s ++ [nl].
Definition ex_sub_script : text :=
  line "(set-info :smt-lib-version 2.6)" ++ line "(set-logic QF_BV)" ++
  line "; (Sub32 (Add32 x y) x) => y" ++
  line "(declare-const x (_ BitVec 32))" ++ line "(declare-const y (_ BitVec 32))" ++
  line "(assert (not (= (bvsub (bvadd x y) x) y)))" ++ line "(check-sat)" ++ line "(exit)".

Example ex_sub_generates : Generate ex_sub = Ok ex_sub_script.
Proof. reflexivity. Qed.
Example ex_sub_names : Forall (fun x => legal_name false x = true) (rule_vars ex_sub).
Proof. repeat constructor. Qed.

(** C36 *)
Lemma generate_reads lenient r s : Generate r = Ok s ->
  Forall (fun x => legal_name lenient x = true) (rule_vars r) ->
  exists G, typable G r /\ read_script lenient s = Some (script_cmds G r).
Proof.
  intros E Hn. apply generate_iff in E. destruct E as [G [T ->]]. exists G. split; [exact T|].
  apply read_script_ok; [apply T|exact Hn|]. eapply typable_no_cr; eauto.
Qed.

Lemma well_formed lenient r s : Generate r = Ok s ->
  Forall (fun x => legal_name lenient x = true) (rule_vars r) ->
  exists ds t,
    let cmds := SetInfo (str "smt-lib-version") (str "2.6") :: SetLogic (str "QF_BV") ::
                map (fun d => DeclareConst (fst d) (snd d)) ds ++ [Assert t; CheckSat; Exit_] in
    read_script lenient s = Some cmds /\ script_ok lenient cmds /\ map fst ds = firsts [] (rule_vars r).
Proof.
  intros E Hn. destruct (generate_reads lenient r s E Hn) as [G [T R]].
  exists (env_of (decls G r)), (TApp (str "not") [TApp (str "=") [vterm (r_match r); vterm (r_result r)]]).
  assert (Hm : map (fun d => DeclareConst (fst d) (snd d)) (env_of (decls G r)) =
               map (fun d => DeclareConst (fst d) (tsort (snd d))) (decls G r)).
  { unfold env_of. rewrite map_map. reflexivity. }
  cbv zeta. rewrite Hm. split; [exact R|]. split.
  - apply (script_well_formed lenient G r); [apply T|exact Hn].
  - unfold env_of. rewrite map_map. cbn. apply decls_names.
Qed.

Theorem C36_script_well_formed :
  forall lenient r s, Generate r = Ok s ->
    Forall (fun x => legal_name lenient x = true) (rule_vars r) ->
    exists ds t,
      let cmds := SetInfo (str "smt-lib-version") (str "2.6") :: SetLogic (str "QF_BV") ::
                  map (fun d => DeclareConst (fst d) (snd d)) ds ++ [Assert t; CheckSat; Exit_] in
      read_script lenient s = Some cmds /\ script_ok lenient cmds /\ map fst ds = firsts [] (rule_vars r).
Proof. exact well_formed. Qed.
Print Assumptions C36_script_well_formed.

(** [firsts] lists each variable once. *)
Theorem C36_declared_once :
  forall r, NoDup (firsts [] (rule_vars r)) /\ forall x, In x (firsts [] (rule_vars r)) <-> In x (rule_vars r).
Proof.
  exact (fun r => conj (firsts_nodup (rule_vars r) []) (fun x =>
    iff_trans (firsts_in (rule_vars r) [] x) (conj (fun H => proj1 H) (fun H => conj H (fun F => F))))).
Qed.
Print Assumptions C36_declared_once.

(** The proviso on names is needed: a variable called let gives an unreadable script. *)
Definition ex_let : rule := mkRule (node2 "Sub8" (var "let") (var "let")) None [] (node2 "Sub8" (var "y") (var "y")).
Lemma let_unreadable : exists s, Generate ex_let = Ok s /\ read_script false s = None.
Proof. eexists. split; [reflexivity|]. vm_compute. reflexivity. Qed.
Theorem C36_any_name_refuted :
  ~ (forall r s, Generate r = Ok s -> exists cmds, read_script false s = Some cmds).
Proof.
  exact (fun H => match let_unreadable with
    | ex_intro _ s (conj E N) => match H ex_let s E with
        | ex_intro _ cmds R => eq_ind None (fun o => match o with None => True | Some _ => False end) I _ (eq_trans (eq_sym N) R) end end).
Qed.
Print Assumptions C36_any_name_refuted.

(** C37 *)
Lemma decides lenient r s : Generate r = Ok s ->
  Forall (fun x => legal_name lenient x = true) (rule_vars r) ->
  exists cmds, read_script lenient s = Some cmds /\ (~ satisfiable cmds <-> rule_valid r).
Proof.
  intros E Hn. destruct (generate_reads lenient r s E Hn) as [G [T R]]. exists (script_cmds G r). split; [exact R|].
  apply unsat_iff_valid; apply T.
Qed.
Theorem C37_unsat_iff_valid :
  forall lenient r s, Generate r = Ok s ->
    Forall (fun x => legal_name lenient x = true) (rule_vars r) ->
    exists cmds, read_script lenient s = Some cmds /\ (~ satisfiable cmds <-> rule_valid r).
Proof. exact decides. Qed.
Print Assumptions C37_unsat_iff_valid.

(** A rule that is not valid, with its counterexample. *)
Definition ex_wrong : rule := mkRule (node2 "Sub8" (var "x") (var "y")) None [] (node2 "Sub8" (var "y") (var "x")).
Lemma typed_var_inv G x t : typed G (Var x) t -> G x = t.
Proof. intros T; inversion T; reflexivity. Qed.
Lemma ex_wrong_invalid : ~ rule_valid ex_wrong.
Proof.
  intros [G [[t [T _]] H]]. inversion T as [|s o B O F]; subst.
  assert (o = IntOp Sub W8) as ->. { apply opcode_inj. cbn in O. injection O as O. symmetry. exact O. }
  inversion F as [|? ? ? ? Fx F']; subst. inversion F' as [|? ? ? ? Fy _]; subst.
  apply typed_var_inv in Fx, Fy. rename Fx into Ea. rename Fy into Eb.
  destruct (H (fun x => if text_eqb x (str "x") then VI 1 else match G x with TyBool => VB false | TyInt _ => VI 0 end)) as [a [E1 E2]].
  - intros x. destruct (text_eqb_spec x (str "x")) as [->|].
    + rewrite Ea. cbn. lia.
    + destruct (G x) as [|[]]; cbn; auto; lia.
  - cbn in E1, E2. unfold all_some in E1, E2. change (G ["y"%char] = TyInt W8) in Eb. rewrite Eb in E1, E2. vm_compute in E1, E2. congruence.
Qed.
Example C37_example : exists s, Generate ex_wrong = Ok s /\ ~ rule_valid ex_wrong.
Proof. eexists. split; [reflexivity|apply ex_wrong_invalid]. Qed.

(** C38 *)
Theorem C38_success_iff_typable :
  forall r,
    (exists s, Generate r = Ok s) <->
    (r_cond r = None /\ r_block r = [] /\ (exists s, r_match r = SExp s) /\ exists G, rule_typed G r).
Proof.
  intros r. split.
  - intros [s E]. destruct (generate_sound r s E) as [G (C & B & M & T)]. eauto.
  - intros (C & B & M & [G T]). exists (script G r). apply generate_typed. repeat split; assumption.
Qed.
Print Assumptions C38_success_iff_typable.
Example C38_example : exists G, rule_typed G ex_sub.
Proof. destruct (generate_sound ex_sub _ ex_sub_generates) as [G T]. exists G. apply T. Qed.

(** C39: anything unsupported anywhere makes Generate fail. *)
Definition supported_sexpr (s : sexpr) : Prop := bare s /\ exists o, s_op s = Opcode (opcode_of o).

Lemma typed_sexprs G v t : typed G v t -> Forall supported_sexpr (value_sexprs v).
Proof.
  revert v t. apply (typed_ind' G (fun v _ => Forall supported_sexpr (value_sexprs v))); [constructor|].
  intros s o B O F IH. cbn [value_sexprs]. constructor; [split; eauto|].
  clear -IH. induction IH; cbn; [constructor|]. apply Forall_app. auto.
Qed.
Lemma typed_leaves G v t : typed G v t ->
  forall n, occurs n (node_of_value v) -> match n with NExpr _ | NNil | NParts _ | NAlt _ => False | _ => True end.
Proof.
  revert v t. apply (typed_ind' G (fun v _ => forall n, occurs n (node_of_value v) ->
    match n with NExpr _ | NNil | NParts _ | NAlt _ => False | _ => True end)).
  - intros x n H. apply occurs_inv in H. destruct H as [->|[c [[] _]]]. exact I.
  - intros s o B O F IH n H. apply occurs_inv in H. destruct H as [->|[c [Hc Ho]]]; [exact I|].
    cbn [node_of_value children In] in Hc. destruct Hc as [<-|Hc].
    + rewrite O in Ho. apply occurs_inv in Ho. destruct Ho as [->|[c [[] _]]]. exact I.
    + apply in_map_iff in Hc. destruct Hc as [a [<- Ha]]. clear -IH Ha Ho.
      induction IH as [|b t l ts Hb _ IHl]; [contradiction|]. destruct Ha as [<-|Ha]; [exact (Hb n Ho)|exact (IHl Ha)].
Qed.

Lemma reject r :
  (r_cond r <> None \/ r_block r <> [] \/
   (exists s, occurs (NSExpr s) (NRule r) /\ ~ supported_sexpr s) \/
   (exists e, occurs (NExpr e) (NRule r)) \/ occurs NNil (NRule r)) ->
  exists e, Generate r = Err e.
Proof.
  intros H. destruct (Generate r) as [s|e|m] eqn:E; [|eauto|elim (generate_no_panic r m E)].
  exfalso. destruct (generate_sound r s E) as [G (C & B & _ & [t [TM TR]])].
  assert (Hleaf : forall n, occurs n (NRule r) -> match n with NExpr _ | NNil | NParts _ | NAlt _ => False | _ => True end).
  { intros n Hn. apply occurs_inv in Hn. destruct Hn as [->|[c [[<-|[<-|[]]] Hn]]]; [exact I|..];
      [exact (typed_leaves _ _ _ TM n Hn)|exact (typed_leaves _ _ _ TR n Hn)]. }
  destruct H as [H|[H|[[x [Hx H]]|[[x Hx]|H]]]]; try contradiction.
  - apply H. apply occurs_sexpr_rule in Hx. apply in_app_iff in Hx.
    destruct Hx as [Hx|Hx]; [pose proof (typed_sexprs _ _ _ TM) as F|pose proof (typed_sexprs _ _ _ TR) as F];
      rewrite Forall_forall in F; auto.
  - exact (Hleaf _ Hx).
  - exact (Hleaf _ H).
Qed.

Theorem C39_unsupported_rejected :
  forall r,
    (r_cond r <> None \/ r_block r <> [] \/
     (exists s, occurs (NSExpr s) (NRule r) /\ ~ supported_sexpr s) \/
     (exists e, occurs (NExpr e) (NRule r)) \/ occurs NNil (NRule r)) ->
    exists e, Generate r = Err e.
Proof. exact reject. Qed.
Print Assumptions C39_unsupported_rejected.
Example C39_example :
  Generate (mkRule (node2 "Sub8" (SExp (mkSExpr (str "b") (Opcode (str "Neg8")) [] None None [var "x"] false false)) (var "x")) None [] (var "x"))
    = Err (str "Sub8: evaluate argument 0: not supported: sexpr binding") /\
  Generate (mkRule (node2 "Mul8" (var "x") (var "x")) None [] (var "x")) = Err (str "not supported: opcode Mul8").
Proof. split; reflexivity. Qed.

(** C40 *)
Theorem C40_no_panic : forall r m, Generate r <> Panic m.
Proof. exact generate_no_panic. Qed.
Print Assumptions C40_no_panic.
Example C40_example : Generate (mkRule NilValue None [] NilValue) = Err (str "assertion failure: unexpected type <nil>").
Proof. reflexivity. Qed.

(** C41: the script is a fixed text around the lines of the printed rule, each commented;
    whatever lines are commented that way (CR excepted) the tokens are those of the
    fixed text. *)
Definition commented (lines : list text) : text := List.concat (map (fun l => str "; " ++ l ++ [nl]) lines).
Lemma comment_plain l t : ~ In nl l -> comment_lines (l ++ t) = l ++ comment_lines t.
Proof. induction l as [|c l IH]; intros N; [reflexivity|]. cbn [app comment_lines]. destruct (ascii_dec c nl) as [->|]; [destruct N; left; reflexivity|]. f_equal. apply IH. intros I. apply N. right. exact I. Qed.
Lemma comment_commented lines : lines <> [] -> Forall (fun l => ~ In nl l) lines -> str "; " ++ comment_lines (sep_by [nl] lines) ++ [nl] = commented lines.
Proof.
  intros Ne F. induction F as [|l lines H F IH]; [congruence|]. destruct lines as [|l' lines].
  - cbn [sep_by]. rewrite <- (app_nil_r l) at 1. rewrite (comment_plain l [] H). unfold commented. cbn [comment_lines map List.concat]. rewrite !app_nil_r. reflexivity.
  - change (sep_by [nl] (l :: l' :: lines)) with (l ++ [nl] ++ sep_by [nl] (l' :: lines)). rewrite (comment_plain l _ H). change (comment_lines ([nl] ++ sep_by [nl] (l' :: lines))) with ([nl] ++ str "; " ++ comment_lines (sep_by [nl] (l' :: lines))).
    unfold commented in *. cbn [map List.concat] in *. rewrite <- IH by discriminate. rewrite <- !app_assoc. reflexivity.
Qed.
Lemma in_lines t : exists lines, lines <> [] /\ t = sep_by [nl] lines /\ Forall (fun l => ~ In nl l) lines.
Proof.
  induction t as [|c t (lines & Ne & E & F)]; [exists [[]]; split; [discriminate|split; [reflexivity|repeat constructor; intros []]]|].
  destruct lines as [|l lines]; [congruence|]. inversion F; subst. destruct (ascii_dec c nl) as [->|N].
  - exists ([] :: l :: lines). split; [discriminate|]. split; [reflexivity|]. constructor; [intros []|exact F].
  - exists ((c :: l) :: lines). split; [discriminate|]. split; [destruct lines; reflexivity|]. constructor; [|assumption]. intros [I|I]; [congruence|contradiction].
Qed.
Lemma sep_no_cr lines : Forall (fun l => ~ In cr l) lines -> ~ In cr (sep_by [nl] lines).
Proof.
  induction 1 as [|l lines H F IH]; [intros []|]. destruct lines as [|l' lines]; [exact H|]. change (sep_by [nl] (l :: l' :: lines)) with (l ++ [nl] ++ sep_by [nl] (l' :: lines)).
  rewrite !in_app_iff. intros [I|[[I|[]]|I]]; [contradiction|discriminate|contradiction].
Qed.
Theorem C41_comment_contained :
  forall r s, Generate r = Ok s ->
    exists pre lines post, s = pre ++ commented lines ++ post /\
      rule_text r = sep_by [nl] lines /\ Forall (fun l => ~ In nl l) lines /\
      forall lines', Forall (fun l => ~ In nl l /\ ~ In cr l) lines' -> tokens (pre ++ commented lines' ++ post) = tokens (pre ++ post).
Proof.
  intros r s E. apply generate_iff in E. destruct E as [G [T ->]]. destruct (in_lines (rule_text r)) as (lines & Ne & El & F).
  exists header, lines, (List.concat (map decl_line (decls G r)) ++ footer (vexpr (r_match r)) (vexpr (r_result r))). split; [|split; [exact El|split; [exact F|]]].
  - unfold script, comment_block. rewrite El, (comment_commented lines Ne F). reflexivity.
  - intros lines' F'. unfold tokens. rewrite !header_tokens. f_equal. destruct lines' as [|l lines']; [reflexivity|].
    rewrite <- comment_commented; [|discriminate|eapply Forall_impl; [|exact F']; cbn; tauto].
    apply (comment_block_eaten (sep_by [nl] (l :: lines'))). apply sep_no_cr. eapply Forall_impl; [|exact F']. cbn. tauto.
Qed.
Print Assumptions C41_comment_contained.

(** For the rules Generate accepts with legal variable names the comment has no
    line break at all. *)
Lemma legal_no_cr r s lenient : Generate r = Ok s -> Forall (fun x => legal_name lenient x = true) (rule_vars r) -> ~ In cr (rule_text r).
Proof. intros E Hn. destruct (generate_sound r s E) as [G T]. eapply typable_no_cr; eauto. Qed.
Theorem C41_legal_names_no_cr :
  forall r s lenient, Generate r = Ok s -> Forall (fun x => legal_name lenient x = true) (rule_vars r) -> ~ In cr (rule_text r).
Proof. exact legal_no_cr. Qed.
Print Assumptions C41_legal_names_no_cr.

(** A carriage return does end the comment: only line feeds are guarded. *)
Theorem C41_carriage_return_refuted :
  ~ (forall l rest, ~ In nl l -> tokens (commented [l] ++ rest) = tokens rest).
Proof. intros H. specialize (H (cr :: str "(assert false)") [] ltac:(cbn; intuition discriminate)). vm_compute in H. discriminate. Qed.
Print Assumptions C41_carriage_return_refuted.
Example C41_example :
  tokens (commented [str "a"; str "(assert false)"] ++ str "(exit)") = [LP; Word (str "exit"); RP].
Proof. reflexivity. Qed.

(** C42: if placeholders were independent, every rule obtained from r by giving
    its placeholders names of their own would be valid when r's script is
    unsatisfiable.  It is not so. *)
Inductive placeholders_named : value -> value -> Prop :=
| pn_hole x : placeholders_named (Var Placeholder) (Var x)
| pn_var x : x <> Placeholder -> placeholders_named (Var x) (Var x)
| pn_sexpr s args : Forall2 placeholders_named (s_args s) args ->
    placeholders_named (SExp s) (SExp (mkSExpr (s_binding s) (s_op s) (s_type s) (s_auxint s) (s_aux s) args (s_ellipsis s) (s_trailing s))).

Definition ex_holes : rule := mkRule (node2 "Sub8" (Var Placeholder) (Var Placeholder)) None [] (node2 "Sub8" (var "x") (var "x")).
Definition ex_named : rule := mkRule (node2 "Sub8" (var "a") (var "b")) None [] (node2 "Sub8" (var "x") (var "x")).

Lemma ex_holes_valid : rule_valid ex_holes.
Proof.
  assert (T : forall x, typed (fun _ => TyInt W8) (node2 "Sub8" (Var x) (Var x)) (TyInt W8)).
  { intros x. apply (typed_op (fun _ => TyInt W8) _ (IntOp Sub W8)).
    - repeat split.
    - reflexivity.
    - repeat constructor; apply (typed_var (fun _ => TyInt W8)). }
  exists (fun _ => TyInt W8). split.
  - exists (TyInt W8). split; apply T.
  - intros rho Hr. exists (VI 0). pose proof (Hr Placeholder) as H1. pose proof (Hr (str "x")) as H2.
    cbn in H1, H2. cbn. unfold all_some. 
    destruct (rho [ "x"%char ]) as [|z] eqn:E2; [contradiction|].
    destruct (rho [ "_"%char ]) as [|y] eqn:E1; [contradiction|].
    cbn. rewrite !Z.sub_diag. split; reflexivity.
Qed.
Lemma ex_named_invalid : ~ rule_valid ex_named.
Proof.
  intros [G [[t [T T2]] H]]. inversion T as [|s o B O F]; subst.
  assert (o = IntOp Sub W8) as ->. { apply opcode_inj. cbn in O. injection O as O. symmetry. exact O. }
  inversion F as [|? ? ? ? Fx F']; subst. inversion F' as [|? ? ? ? Fy _]; subst.
  apply typed_var_inv in Fx, Fy. rename Fx into Ea. rename Fy into Eb.
  inversion T2 as [|s2 o2 B2 O2 F2]; subst.
  assert (o2 = IntOp Sub W8) as ->. { apply opcode_inj. cbn in O2. injection O2 as O2. symmetry. exact O2. }
  inversion F2 as [|? ? ? ? Fz _]; subst. apply typed_var_inv in Fz. rename Fz into Ez.
  destruct (H (fun x => if text_eqb x (str "a") then VI 1 else match G x with TyBool => VB false | TyInt _ => VI 0 end)) as [a [E1 E2]].
  - intros x. destruct (text_eqb_spec x (str "a")) as [->|].
    + rewrite Ea. cbn. lia.
    + destruct (G x) as [|[]]; cbn; auto; lia.
  - cbn in E1, E2. unfold all_some in E1, E2. change (G ["b"%char] = TyInt W8) in Eb. change (G ["x"%char] = TyInt W8) in Ez.
    rewrite Eb in E1. rewrite Ez in E2. vm_compute in E1, E2. congruence.
Qed.

Lemma placeholders_shared :
  exists r s cmds r', Generate r = Ok s /\ read_script true s = Some cmds /\ ~ satisfiable cmds /\
    placeholders_named (r_match r) (r_match r') /\ r_result r' = r_result r /\ ~ rule_valid r'.
Proof.
  assert (E : exists s, Generate ex_holes = Ok s) by (eexists; reflexivity). destruct E as [s E].
  destruct (decides true ex_holes s E) as [cmds [R D]]; [repeat constructor|].
  exists ex_holes, s, cmds, ex_named. split; [exact E|]. split; [exact R|]. split; [apply D; apply ex_holes_valid|].
  split; [|split; [reflexivity|apply ex_named_invalid]].
  apply (pn_sexpr (mkSExpr [] (Opcode (str "Sub8")) [] None None [Var Placeholder; Var Placeholder] false false)).
  repeat constructor.
Qed.
Theorem C42_placeholders_independent_refuted :
  ~ (forall r s cmds r', Generate r = Ok s -> read_script true s = Some cmds -> ~ satisfiable cmds ->
       placeholders_named (r_match r) (r_match r') -> r_result r' = r_result r -> rule_valid r').
Proof.
  exact (fun H => match placeholders_shared with
    | ex_intro _ r (ex_intro _ s (ex_intro _ cmds (ex_intro _ r' (conj a (conj b (conj c (conj d (conj e f)))))))) =>
        f (H r s cmds r' a b c d e) end).
Qed.
Print Assumptions C42_placeholders_independent_refuted.

(** Moreover a strict SMT-LIB reader rejects the script: _ is a reserved word. *)
Theorem C42_placeholder_script_unreadable :
  exists s, Generate ex_holes = Ok s /\ read_script false s = None.
Proof. eexists. split; [reflexivity|]. vm_compute. reflexivity. Qed.
Print Assumptions C42_placeholder_script_unreadable.
