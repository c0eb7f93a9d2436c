(** How large trees and texts get: parsing and printing, expansion, scripts. *)
From Verif Require Import Text GoAst Ast SpecTree SpecPrint SpecExpand PrintFacts SpecSmt Smt SmtGen Printer Utf8 SpecSyntax SpecTrim SynTrim GoParser SizeGo Expand ExpandFacts CmdFacts SpecSmtErr SmtErrFacts SpecRun CmdParse SpecCmd SpecSize.
From Coq Require Import Arith Lia DecimalString.
Open Scope nat_scope.
Open Scope list_scope.

Lemma total_app a b : total (a ++ b) = total a + total b.
Proof. induction a; cbn; lia. Qed.
Lemma concat_size (l : list text) : len (List.concat l) = total (map len l).
Proof. induction l as [|t l IH]; cbn; [reflexivity|]. rewrite app_length. lia. Qed.

Lemma str_size s : len (str s) = String.length s.
Proof. induction s as [|c s IH]; [reflexivity|cbn; f_equal; exact IH]. Qed.
Ltac sz := rewrite ?str_size; cbn [String.length List.length].
Ltac szi := rewrite ?str_size in *; cbn [String.length List.length] in *.

(** * From the source to the printed file *)
Definition vsize (v : value) : nat := len (value_text v).
Definition operand_size (o : operand) : nat :=
  match o with
  | OType t => 3 + len t
  | OAuxInt e | OAux e => 3 + len (go_text e)
  | OArg v => 1 + vsize v
  end.
Lemma last_in {A} (l : list A) d : l = [] \/ In (last l d) l.
Proof.
  induction l as [|a l IH]; [left; reflexivity|]. right. destruct l as [|b l']; [left; reflexivity|].
  destruct IH as [X|X]; [discriminate|]. right. exact X.
Qed.
Lemma total_in {A} (f : A -> nat) l a : In a l -> f a <= total (map f l).
Proof. induction l as [|b l IH]; cbn; [intros []|]. intros [->|H]; [lia|]. apply IH in H. lia. Qed.

Lemma operands_size l :
  total (map (fun t => 3 + len t) (types_of l)) + total (map (fun e => 3 + len (go_text e)) (auxints_of l)) +
  total (map (fun e => 3 + len (go_text e)) (auxs_of l)) + total (map (fun v => 1 + vsize v) (args_of l)) =
  total (map operand_size l).
Proof.
  induction l as [|o l IH]; [reflexivity|].
  destruct o; cbn [types_of auxints_of auxs_of args_of flat_map app map total operand_size] in *;
    fold (types_of l) (auxints_of l) (auxs_of l) (args_of l) in *; lia.
Qed.

Lemma type_size l : len (if_given (last l []) (fun t => str " <" ++ t ++ str ">")) <= total (map (fun t => 3 + len t) l).
Proof.
  destruct (last_in l []) as [->|H]; [cbn; lia|]. apply (total_in (fun t => 3 + len t)) in H.
  destruct (last l []) as [|c t]; [cbn; lia|]. unfold if_given. rewrite !app_length. cbn in *. lia.
Qed.
Lemma set_size (a b : string) l : String.length a + String.length b = 3 ->
  len (if_set (last (map Some l) None) (fun e => str a ++ go_text e ++ str b)) <= total (map (fun e => 3 + len (go_text e)) l).
Proof.
  intros L. destruct (last_in (map Some l) None) as [E|H]; [rewrite E; cbn; lia|].
  apply in_map_iff in H. destruct H as [e [<- H]]. apply (total_in (fun e => 3 + len (go_text e))) in H.
  cbn [if_set]. rewrite !app_length.
  sz. lia.
Qed.

Lemma assemble_size b o l el tr :
  vsize (SExp (assemble b o l el tr)) <=
    len (if_given b (fun b => b ++ str ":")) + 2 + len (opcode_text o) + total (map operand_size l) +
    (if el then 4 else 0) + (if tr then 4 else 0).
Proof.
  unfold vsize, assemble. cbn [value_text s_binding s_op s_type s_auxint s_aux s_args s_ellipsis s_trailing].
  rewrite !app_length. pose proof (type_size (types_of l)) as T.
  pose proof (set_size " [" "]" (auxints_of l) eq_refl) as I. pose proof (set_size " {" "}" (auxs_of l) eq_refl) as A.
  pose proof (operands_size l) as O.
  assert (R : len (List.concat (map (fun a => str " " ++ value_text a) (args_of l))) = total (map (fun v => 1 + vsize v) (args_of l))).
  { rewrite concat_size, map_map. reflexivity. }
  rewrite R. destruct el, tr; cbn [when]; szi; lia.
Qed.

Notation gosrc := ParseExpr.
Lemma ws1_size w : ws1 w -> 1 <= len w.
Proof. intros [_ N]. destruct w; [congruence|]. cbn. lia. Qed.
Lemma flag_size m t b : len m = 3 -> flag_form m t b -> (if b then 4 else 0) <= len t.
Proof. intros L [|w W]; [lia|]. rewrite app_length, L. apply ws1_size in W. lia. Qed.
Lemma expr_size t v : expr_form gosrc t v -> vsize v <= 3 * len t.
Proof. intros [t' e _ R|x I|]; unfold vsize; cbn [value_text]; [apply reads_size; exact R|lia|cbn; lia]. Qed.

Lemma value_sizes :
  (forall t v, value_form gosrc t v -> vsize v <= 3 * len t) /\
  (forall t l, operands_form gosrc t l -> total (map operand_size l) <= 3 * len t) /\
  (forall t o, operand_form gosrc t o -> operand_size o <= 3 * len t + 3 /\ operand_size o <= 3 * (1 + len t)).
Proof.
  apply (value_forms_ind gosrc
    (fun t v _ => vsize v <= 3 * len t)
    (fun t l _ => total (map operand_size l) <= 3 * len t)
    (fun t o _ => operand_size o <= 3 * len t + 3 /\ operand_size o <= 3 * (1 + len t))).
  - intros t v E. apply expr_size. exact E.
  - intros b w o opst ops ell el trl tr w' B W O F IH E T W'.
    pose proof (assemble_size b o ops el tr) as A. apply flag_size in E, T; try reflexivity.
    rewrite !app_length. szi. lia.
  - cbn. lia.
  - intros w t x rest xs W _ IHx _ IHr. apply ws1_size in W. cbn [map total]. rewrite !app_length. lia.
  - intros t _ _. cbn [operand_size]. rewrite !app_length. sz. lia.
  - intros t e _ _ R. apply reads_size in R. cbn [operand_size]. rewrite !app_length. sz. lia.
  - intros t e _ _ R. apply reads_size in R. cbn [operand_size]. rewrite !app_length. sz. lia.
  - intros t v _ IH. cbn [operand_size]. lia.
Qed.

Lemma trim_size t : len (trim_space t) <= len t.
Proof. destruct (trim_space_trimmed t) as (a & b & E & _). rewrite E at 2. rewrite !app_length. lia. Qed.
Lemma newlines_size t : len (newlines_to_spaces t) = len t.
Proof. apply map_length. Qed.

Lemma cond_size after t c : cond_form gosrc after t c -> len (if_set c (fun e => str " && " ++ go_text e)) <= 3 * len t.
Proof.
  intros [|w w' c' e b after' W W' N _ _ _ _ R]; [cbn; lia|]. cbn [if_set]. apply reads_cond_iff in R. apply reads_size in R.
  apply ws1_size in W, W'. pose proof (trim_size (newlines_to_spaces c')). rewrite newlines_size in *.
  rewrite !app_length. sz. lia.
Qed.
Lemma block_size after t b : block_form after t b -> len (if_given b (fun b => str "@" ++ b ++ str " ")) <= 3 * len t.
Proof.
  intros [|b' c after' N _ _ _]; [cbn; lia|]. destruct b' as [|x b']; [congruence|].
  unfold if_given. rewrite !app_length. sz. lia.
Qed.
Lemma rule_size after t r : rule_form gosrc after t r -> len (rule_text r ++ [nl]) <= 3 * len t.
Proof.
  intros [m vm ct c w1 w2 bt b w3 res vr M C W1 W2 B W3 R _].
  apply (proj1 value_sizes) in M, R. apply cond_size in C. apply block_size in B. unfold vsize in *.
  unfold rule_text. cbn [r_match r_cond r_block r_result]. rewrite !app_length.
  sz. lia.
Qed.
Lemma source_size t rs : source_form gosrc t rs -> len (file_text (mkFile rs)) <= 3 * len t.
Proof.
  unfold file_text. cbn [f_rules]. induction 1 as [|w t w' rest r rs W W' R S IH]; [cbn; lia|].
  apply rule_size in R. cbn [map List.concat]. rewrite app_length, !app_length. rewrite app_length in R. lia.
Qed.

(** * Expansion *)
Definition gsize (gs : list nat) : nat := total gs.
Lemma sep_sum sep l : total (map len l) <= len (sep_by sep l).
Proof.
  induction l as [|t l IH]; [cbn; lia|]. destruct l as [|u l']; [cbn; lia|].
  change (sep_by sep (t :: u :: l')) with (t ++ sep ++ sep_by sep (u :: l')).
  rewrite !app_length. cbn [map total] in *. lia.
Qed.
Lemma sep_count (l : list text) : List.length l <= S (len (sep_by (str "|") l)).
Proof.
  induction l as [|t l IH]; [cbn; lia|]. destruct l as [|u l']; [cbn; lia|].
  change (sep_by (str "|") (t :: u :: l')) with (t ++ str "|" ++ sep_by (str "|") (u :: l')).
  rewrite !app_length. szi. lia.
Qed.
Lemma part_inst_size i p : len (part_inst i p) <= len (part_text p).
Proof.
  destruct p as [c|alts|]; cbn [part_inst part_text]; [lia| |lia].
  destruct alts as [|a alts']; [destruct i; cbn; lia|]. set (l := a :: alts'). rewrite !app_length.
  pose proof (sep_sum (str "|") l) as S.
  destruct (Nat.lt_ge_cases i (List.length l)) as [H|H].
  - apply (nth_In l []) in H. apply (total_in len) in H. lia.
  - rewrite nth_overflow by exact H. cbn. lia.
Qed.
Lemma op_inst_size i o : len (opcode_text (op_inst i o)) <= len (opcode_text o).
Proof.
  destruct o as [c|ps|]; cbn [op_inst opcode_text]; try lia. rewrite !concat_size, !map_map.
  induction ps as [|p ps IH]; cbn; [lia|]. pose proof (part_inst_size i p). lia.
Qed.
Lemma value_inst_size i v : vsize (value_inst i v) <= vsize v.
Proof.
  unfold vsize. induction v as [s IH|e|x|] using value_ind'; try (cbn; lia).
  cbn [value_inst value_text s_binding s_op s_type s_auxint s_aux s_args s_ellipsis s_trailing].
  rewrite !app_length. pose proof (op_inst_size i (s_op s)).
  assert (len (List.concat (map (fun a => str " " ++ value_text a) (map (value_inst i) (s_args s)))) <=
          len (List.concat (map (fun a => str " " ++ value_text a) (s_args s)))); [|lia].
  clear - IH. induction IH as [|a l Ha _ IHl]; cbn [map List.concat]; [lia|]. rewrite !app_length in *. lia.
Qed.
Lemma rule_inst_size i r : len (rule_text (rule_inst i r)) <= len (rule_text r).
Proof.
  unfold rule_text, rule_inst. cbn [r_match r_cond r_block r_result]. rewrite !app_length.
  pose proof (value_inst_size i (r_match r)). pose proof (value_inst_size i (r_result r)). unfold vsize in *. lia.
Qed.

(** A group is no larger than the text it is in. *)
Lemma part_groups_size p n : In n (part_groups p) -> n <= len (part_text p).
Proof.
  destruct p as [c|alts|]; cbn [part_groups part_text In]; try contradiction. intros [<-|[]].
  destruct alts as [|a l]; [cbn; lia|]. pose proof (sep_count (a :: l)). rewrite !app_length.
  szi. lia.
Qed.
Lemma op_groups_size o n : In n (op_groups o) -> n <= len (opcode_text o).
Proof.
  destruct o as [c|ps|]; cbn [op_groups opcode_text]; try (intros []; fail). intros H. apply in_flat_map in H.
  destruct H as [p [Hp Hn]]. apply part_groups_size in Hn. rewrite concat_size, map_map.
  apply (total_in (fun p => len (part_text p))) in Hp. lia.
Qed.
Lemma value_groups_size v n : In n (value_groups v) -> n <= vsize v.
Proof.
  unfold vsize. induction v as [s IH|e|x|] using value_ind'; cbn [value_groups]; try (intros []; fail).
  intros H. apply in_app_iff in H. cbn [value_text]. rewrite !app_length. destruct H as [H|H].
  - apply op_groups_size in H. lia.
  - apply in_flat_map in H. destruct H as [a [Ha H]]. rewrite Forall_forall in IH. apply (IH a Ha) in H.
    rewrite concat_size, map_map. apply (total_in (fun a => len (str " " ++ value_text a))) in Ha.
    rewrite app_length in Ha. lia.
Qed.
Lemma rule_groups_size r n : In n (rule_groups r) -> n <= len (rule_text r).
Proof.
  unfold rule_groups, rule_text. intros H. apply in_app_iff in H. rewrite !app_length.
  destruct H as [H|H]; apply value_groups_size in H; unfold vsize in H; lia.
Qed.
Lemma arity_size r : arity (rule_groups r) <= len (rule_text r).
Proof.
  destruct (rule_groups r) as [|n gs] eqn:G; cbn [arity].
  - unfold rule_text. rewrite !app_length. sz. lia.
  - apply rule_groups_size. rewrite G. left. reflexivity.
Qed.

Lemma instances_count r : List.length (instances r) = arity (rule_groups r).
Proof. unfold instances. rewrite map_length, seq_length. reflexivity. Qed.
Lemma total_le {A} (f : A -> nat) k l : Forall (fun a => f a <= k) l -> total (map f l) <= List.length l * k.
Proof. induction 1; cbn; lia. Qed.
(** The instances of a rule, printed one after the other (each with a constant [c] for
    what else is said about it). *)
Lemma instances_size c r :
  total (map (fun r => len (rule_text r) + c) (instances r)) <= len (rule_text r) * (len (rule_text r) + c).
Proof.
  etransitivity; [apply (total_le _ (len (rule_text r) + c))|].
  - apply Forall_forall. intros r' H. apply in_map_iff in H. destruct H as [i [<- _]].
    pose proof (rule_inst_size i r). lia.
  - rewrite instances_count. apply Nat.mul_le_mono_r. apply arity_size.
Qed.
Lemma rules_size c n rs : total (map (fun r => len (rule_text r) + 1) rs) <= n ->
  total (map (fun r => len (rule_text r) + c) (flat_map instances rs)) <= n * (n + c).
Proof.
  revert n. induction rs as [|r rs IH]; intros n H; cbn [flat_map map total] in *; [lia|].
  rewrite map_app, total_app. pose proof (instances_size c r) as I.
  specialize (IH (n - len (rule_text r)) ltac:(lia)).
  set (a := len (rule_text r)) in *. assert (a <= n) by lia.
  assert (E : n = a + (n - a)) by lia. set (b := n - a) in *. rewrite E. nia.
Qed.
Lemma rules_count n rs : total (map (fun r => len (rule_text r) + 1) rs) <= n -> List.length (flat_map instances rs) <= n.
Proof.
  revert n. induction rs as [|r rs IH]; intros n H; cbn [flat_map map total] in *; [cbn; lia|].
  rewrite app_length, instances_count. pose proof (arity_size r).
  specialize (IH (n - len (rule_text r)) ltac:(lia)). lia.
Qed.
Lemma file_size rs : len (file_text (mkFile rs)) = total (map (fun r => len (rule_text r) + 1) rs).
Proof.
  unfold file_text. cbn [f_rules]. rewrite concat_size, map_map. f_equal. apply map_ext. intros r.
  rewrite app_length. reflexivity.
Qed.

(** * Scripts *)
Definition decl_size (x : text) : nat := 31 + len x.
Lemma vars_size v : total (map decl_size (value_vars v)) <= 31 * (1 + vsize v) /\
  (forall s, v = SExp s -> total (map decl_size (value_vars v)) <= 31 * vsize v).
Proof.
  unfold vsize. induction v as [s IH|e|x|] using value_ind'; try (cbn; split; [lia|discriminate]).
  assert (total (map decl_size (value_vars (SExp s))) <= 31 * len (value_text (SExp s))) as H; [|split; [lia|intros; exact H]].
  cbn [value_vars value_text]. rewrite !app_length.
  assert (H : total (map decl_size (flat_map value_vars (s_args s))) <= 31 * len (List.concat (map (fun a => str " " ++ value_text a) (s_args s)))); [|lia].
  induction IH as [|a l [Ha _] _ IHl]; cbn [flat_map map List.concat]; [cbn; lia|].
  rewrite map_app, total_app, !app_length. szi. lia.
Qed.
Lemma firsts_size l : forall seen, total (map decl_size (firsts seen l)) <= total (map decl_size l).
Proof.
  induction l as [|x l IH]; intros seen; cbn [firsts map total]; [lia|].
  destruct (existsb _ seen); [specialize (IH seen)|specialize (IH (x :: seen))]; cbn [map total]; lia.
Qed.
Lemma decl_line_size G x : len (decl_line (x, G x)) <= decl_size x.
Proof.
  unfold decl_line, decl_size. cbn [fst snd]. rewrite !app_length.
  destruct (G x) as [|[]]; cbn [sort_text List.length str list_ascii_of_string]; lia.
Qed.
Lemma decls_size G l : len (List.concat (map decl_line (map (fun x => (x, G x)) l))) <= total (map decl_size l).
Proof.
  rewrite concat_size, !map_map. induction l as [|x l IH]; cbn [map total]; [lia|]. pose proof (decl_line_size G x). lia.
Qed.
Lemma comment_lines_size t : len (comment_lines t) <= 3 * len t.
Proof. induction t as [|c t IH]; cbn [comment_lines]; [cbn; lia|]. destruct (ascii_dec c nl); cbn in *; lia. Qed.
Lemma fmt_size o es : List.length es = List.length (params o) ->
  len (sprintf (fmt o) es) <= 2 * (2 + len (opcode_of o)) + total (map (fun e => 1 + len e) es).
Proof.
  destruct o as [[] []|[]]; cbn [params List.length]; intros L; destruct es as [|e1 [|e2 [|]]]; try discriminate;
    cbn -[app]; rewrite ?app_length; cbn; rewrite ?app_length; cbn; lia.
Qed.
Lemma vexpr_size G v t : typed G v t -> len (vexpr v) <= 2 * vsize v.
Proof.
  unfold vsize. revert v t. apply (typed_ind' G (fun v t => len (vexpr v) <= 2 * len (value_text v))).
  - intros x. cbn. lia.
  - intros s o B O F IH. cbn [vexpr value_text]. rewrite O, operator_of_opcode.
    assert (L : List.length (map vexpr (s_args s)) = List.length (params o)).
    { rewrite map_length. clear -F. induction F; cbn; congruence. }
    apply fmt_size in L. rewrite !app_length. cbn [opcode_text]; sz.
    assert (X : total (map (fun e => 1 + len e) (map vexpr (s_args s))) <= 2 * len (List.concat (map (fun a => str " " ++ value_text a) (s_args s)))); [|lia].
    clear - IH. rewrite map_map, concat_size, map_map. induction IH as [|a t l ts Ha _ IHl]; cbn [map total]; [lia|].
    rewrite app_length. sz. lia.
Qed.
Lemma Generate_size r s : Generate r = Ok s -> len s <= 36 * len (rule_text r) + 100.
Proof.
  intros E. apply generate_iff in E. destruct E as [G [(C & B & [m M] & [t [TM TR]]) ->]].
  apply vexpr_size in TM, TR. unfold script, header, comment_block, footer. rewrite !app_length.
  pose proof (comment_lines_size (rule_text r)) as CL. pose proof (decls_size G (firsts [] (rule_vars r))) as D.
  fold (decls G r) in D. pose proof (firsts_size (rule_vars r) []) as FS.
  assert (V : total (map decl_size (rule_vars r)) <= 31 * vsize (r_match r) + 31 * (1 + vsize (r_result r))).
  { unfold rule_vars. rewrite map_app, total_app. pose proof (proj2 (vars_size (r_match r)) m M).
    pose proof (proj1 (vars_size (r_result r))). lia. }
  assert (R : len (rule_text r) = vsize (r_match r) + 4 + vsize (r_result r)).
  { unfold rule_text, vsize. rewrite C, B. cbn [if_set if_given app]. rewrite !app_length. cbn. lia. }
  sz. lia.
Qed.

(** * Messages *)
Lemma succ_digits d : Decimal.nb_digits (Decimal.Little.succ d) <= S (Decimal.nb_digits d).
Proof. induction d; cbn; lia. Qed.
Lemma little_digits n : forall acc, Decimal.nb_digits (Nat.to_little_uint n acc) <= n + Decimal.nb_digits acc.
Proof. induction n as [|n IH]; intros acc; cbn [Nat.to_little_uint]; [lia|]. pose proof (IH (Decimal.Little.succ acc)). pose proof (succ_digits acc). lia. Qed.
Lemma revapp_digits d : forall d', Decimal.nb_digits (Decimal.revapp d d') = Decimal.nb_digits d + Decimal.nb_digits d'.
Proof. induction d; intros d'; cbn [Decimal.revapp Decimal.nb_digits]; rewrite ?IHd; cbn; lia. Qed.
Lemma uint_size d : len (str (NilEmpty.string_of_uint d)) = Decimal.nb_digits d.
Proof. rewrite str_size. induction d; cbn [NilEmpty.string_of_uint String.length Decimal.nb_digits]; congruence. Qed.
Lemma dec_size n : len (dec n) <= S n.
Proof.
  unfold dec, Nat.to_uint, Decimal.rev. set (d := Decimal.revapp _ _).
  assert (H : Decimal.nb_digits d <= S n).
  { unfold d. rewrite revapp_digits. pose proof (little_digits n Decimal.zero). cbn in *. lia. }
  destruct d eqn:E; cbn [NilZero.string_of_uint]; [cbn; lia|..]; rewrite <- E in *; rewrite uint_size; exact H.
Qed.
Lemma sexp_size s : vsize (SExp s) >= 2 + len (opcode_text (s_op s)) + total (map (fun a => 1 + vsize a) (s_args s)).
Proof.
  unfold vsize. cbn [value_text]. rewrite !app_length, concat_size, map_map. sz.
  assert (E : total (map (fun x => len (str " " ++ value_text x)) (s_args s)) = total (map (fun a => 1 + len (value_text a)) (s_args s))).
  { f_equal. }
  rewrite E. lia.
Qed.
Lemma args_count (l : list value) : List.length l <= total (map (fun a => 1 + vsize a) l).
Proof. induction l; cbn in *; lia. Qed.
Lemma params_count o : List.length (params o) <= 2.
Proof. destruct o as [[] []|[]]; cbn; lia. Qed.
Lemma wrong_size T before v e : wrong T before v e -> len e <= 12 * vsize v + 60.
Proof.
  intros [s pre used name post F _ _|s _ _|s c _ O _|s o t _ O _ _|s o _ O _ _|x _ _|x t t' _ _ _|e'|]; rewrite ?app_length; sz; try lia.
  - assert (String.length name <= 20); [|lia].
    assert (H : In name (map snd (features s))) by (rewrite F, map_app; apply in_or_app; right; left; reflexivity).
    cbn in H. repeat (destruct H as [<-|H]; [cbn; lia|]). contradiction.
  - pose proof (sexp_size s) as S. rewrite O in S. cbn [opcode_text] in S. lia.
  - pose proof (sexp_size s) as S. rewrite O in S. cbn [opcode_text] in S. destruct t as [|[]]; cbn [type_name]; sz; lia.
  - pose proof (sexp_size s) as S. rewrite O in S. cbn [opcode_text] in S. pose proof (args_count (s_args s)).
    pose proof (params_count o). pose proof (dec_size (List.length (params o))). pose proof (dec_size (List.length (s_args s))). lia.
  - unfold vsize. cbn [value_text]. lia.
  - unfold vsize. cbn [value_text]. lia.
Qed.
Lemma blame_size T before v e : blame T before v e -> len e <= 12 * vsize v + 60.
Proof.
  induction 1 as [T before v e W|T before s o pre a post t G e B O Fi A L Ag F N Bl IH]; [exact (wrong_size _ _ _ _ W)|].
  pose proof (sexp_size s) as S. rewrite O, A, map_app, total_app in S. cbn [opcode_text map total] in S.
  pose proof (args_count pre). pose proof (dec_size (List.length pre)). rewrite !app_length. sz. lia.
Qed.
Lemma message_size r e : rule_bad r = [] -> Generate r = Err e -> len e <= 12 * len (rule_text r) + 60.
Proof.
  intros B E. apply generate_err in E.
  assert (V : vsize (r_match r) <= len (rule_text r) /\ vsize (r_result r) <= len (rule_text r)).
  { unfold vsize, rule_text. rewrite !app_length. lia. }
  destruct E as [t ts B'|e _ M|G s t|G s t|G s t e _ _ _ _ _ M]; [congruence| |sz; lia..|].
  - apply blame_size in M. lia.
  - apply blame_size in M. lia.
Qed.

(** * A run *)
Lemma holds_size disk names files : Forall2 (holds gosrc disk) names files ->
  total (map (fun r => len (rule_text r) + 1) (List.concat files)) <= 3 * input_size disk names.
Proof.
  unfold input_size. induction 1 as [|n rs names files (b & D & _ & S) _ IH]; [cbn; lia|].
  apply source_size in S. rewrite file_size in S. cbn [List.concat map total]. rewrite map_app, total_app, D. lia.
Qed.
Lemma sifted_size {A} (P : A -> Prop) f l k : sifted P l k -> total (map f k) <= total (map f l).
Proof. induction 1; cbn; lia. Qed.
Lemma outputs_size path i rs l log : outputs Generate path i rs l log ->
  total (map (fun p => len (snd p)) l) <= 36 * total (map (fun r => len (rule_text r) + 3) rs) /\ List.length l <= List.length rs.
Proof.
  induction 1 as [i|i r rs ds s l log G _ _ IH|i r rs e l log _ _ IH]; cbn [map total List.length]; [lia| |lia].
  apply Generate_size in G. cbn [snd]. lia.
Qed.
Lemma run_size disk names rs path i l log : run_rules gosrc disk names rs -> outputs Generate path i rs l log ->
  let n := input_size disk names in
  List.length l <= 3 * n /\ total (map (fun p => len (snd p)) l) <= 324 * (n * (n + 1)).
Proof.
  intros (k & (files & F & S) & _ & ->) O n. apply holds_size in F. fold n in F.
  apply (sifted_size _ (fun r => len (rule_text r) + 1)) in S.
  assert (K : total (map (fun r => len (rule_text r) + 1) k) <= 3 * n) by lia.
  apply outputs_size in O. destruct O as [O1 O2]. pose proof (rules_count _ _ K). pose proof (rules_size 3 _ _ K).
  split; [lia|]. nia.
Qed.
