(** Properties of package printer (C17-C19).  Vocabulary: SpecPrint.v. *)
From Verif Require Import Text GoAst Ast Printer SpecPrint PrintFacts.
From Coq Require Import Arith.

(** Witness rule:  x:(Add8 <t> [c+1] {f(a, -b)} y ... ) && a == b.c => @b (Neg(8|16) y ___)  *)
Definition gid (s : string) : gexpr := GIdent NoPos (str s).
Definition ex_print : rule :=
  mkRule
    (SExp (mkSExpr (str "x") (Opcode (str "Add8")) (str "t")
       (Some (GBinary (gid "c") NoPos ADD (GBasicLit NoPos LInt (str "1"))))
       (Some (GCall (gid "f") NoPos [gid "a"; GUnary NoPos SUB (gid "b")] NoPos NoPos))
       [Var (str "y")] true false))
    (Some (GBinary (gid "a") NoPos EQL (GSelector (gid "b") NoPos (str "c"))))
    (str "b")
    (SExp (mkSExpr [] (OpcodeParts [PCode (str "Neg"); PAlt [str "8"; str "16"]]) [] None None
       [Var (str "y")] false true)).
Definition ex_print_text : text :=
  str "x:(Add8 <t> [c+1] {f(a, -b)} y ...) && a == b.c => @b (Neg(8|16) y ___)".
Definition ex_bad : rule :=
  mkRule (SExp (mkSExpr [] (Opcode (str "Add8")) [] (Some (GOther (str "*ast.IndexExpr"))) None [NilValue] false false))
    None [] (Var (str "x")).

(** C17: whatever the writer, the calls it gets are successive pieces of the
    node's text; the first error ends the output and is returned, and an
    unprintable part ends it at that point. *)
Theorem C17_writer_protocol :
  forall n, exists ps,
    prefix (List.concat ps) (node_text n) /\
    (node_bad n = [] -> List.concat ps = node_text n) /\
    forall (W : Type) (write : W -> text -> W * option text) (w : W),
      Fprint write w n =
      match feed write w ps with
      | (w', Some e) => (w', Some e)
      | (w', None) =>
          (w', match node_bad n with [] => None | t :: _ => Some (str "assertion failure: unexpected type " ++ t) end)
      end.
Proof.
  intros n. destruct (Fprint_pieces n) as (ps & P1 & P2 & H). exists ps. split; [exact P1|]. split; [exact P2|].
  intros W write w. rewrite H. destruct (node_bad n); reflexivity.
Qed.
Print Assumptions C17_writer_protocol.

(** In particular: a writer that records what it accepts and fails at some call
    holds a prefix of the text, and its error comes back; nothing follows. *)
Definition recording (fails : list text -> option text) (w : list text) (t : text) : list text * option text :=
  match fails w with None => (w ++ [t], None) | Some e => (w, Some e) end.

Lemma feed_recording fails ps : forall w w' r, feed (recording fails) w ps = (w', r) ->
  exists done rest, ps = done ++ rest /\ w' = w ++ done /\
    match r with Some e => rest <> [] /\ fails w' = Some e | None => rest = [] end.
Proof.
  induction ps as [|t ps IH]; intros w w' r H; cbn in H.
  - inversion H; subst. exists [], []. rewrite !app_nil_r. auto.
  - unfold recording in H at 1. destruct (fails w) as [e|] eqn:E.
    + inversion H; subst. exists [], (t :: ps). rewrite app_nil_r. repeat split; auto. discriminate.
    + apply IH in H. destruct H as [d [rest [-> [-> Hr]]]]. exists (t :: d), rest.
      rewrite <- app_assoc in *. auto.
Qed.

Lemma fprint_recording fails n w r : Fprint (recording fails) [] n = (w, r) ->
  prefix (List.concat w) (node_text n) /\
  (r = None -> List.concat w = node_text n /\ node_bad n = []) /\
  (forall e, fails w = Some e -> r = Some e \/ node_bad n <> [] \/ List.concat w = node_text n).
Proof.
  destruct (Fprint_pieces n) as [ps [Hp [Hall Hf]]]. rewrite Hf. intros H.
  destruct (feed (recording fails) [] ps) as [w' o] eqn:E.
  apply feed_recording in E. destruct E as [d [rest [-> [-> Hr]]]]. cbn [app] in *.
  assert (w = d) as -> by (destruct o; inversion H; reflexivity).
  assert (Hpre : prefix (List.concat d) (node_text n)).
  { destruct Hp as [q Hq]. exists (List.concat rest ++ q). rewrite Hq, concat_app, app_assoc. reflexivity. }
  split; [exact Hpre|]. destruct o as [e'|].
  - inversion H; subst. split; [discriminate|]. intros e He. left. destruct Hr as [_ Hr]. congruence.
  - inversion H; subst. rewrite app_nil_r in *. destruct (node_bad n) as [|t l] eqn:B; cbn.
    + split; auto.
    + split; [discriminate|]. intros e He. right; left; discriminate.
Qed.

Theorem C17_partial_output_is_prefix :
  forall fails n w r, Fprint (recording fails) [] n = (w, r) ->
    prefix (List.concat w) (node_text n) /\
    (r = None -> List.concat w = node_text n /\ node_bad n = []) /\
    (forall e, fails w = Some e -> r = Some e \/ node_bad n <> [] \/ List.concat w = node_text n).
Proof. exact fprint_recording. Qed.
Print Assumptions C17_partial_output_is_prefix.

Example C17_example :
  let fails := fun w : list text => if 3 <=? List.length w then Some (str "disk full") else None in
  Fprint (recording fails) [] (NRule ex_print) = ([str "x:"; str "("; str "Add8"], Some (str "disk full")).
Proof. reflexivity. Qed.

(** C18: success exactly on printable trees, with the text; otherwise the first
    unprintable part is reported; no panic. *)
Theorem C18_bytes :
  forall n, Bytes n = match node_bad n with [] => Ok (node_text n) | t :: _ => Err (str "assertion failure: unexpected type " ++ t) end.
Proof. exact Bytes_eq. Qed.
Print Assumptions C18_bytes.

Example C18_example :
  Bytes (NRule ex_print) = Ok ex_print_text /\
  node_bad (NRule ex_bad) = [str "*ast.IndexExpr"; str "<nil>"] /\
  Bytes (NRule ex_bad) = Err (str "assertion failure: unexpected type *ast.IndexExpr") /\
  Bytes (NAlt [str "a"; str "b"]) = Err (str "assertion failure: unexpected type ast.OpcodeAlt").
Proof. repeat split. Qed.

(** C19 *)
Lemma bytes_file rs t :
  Bytes (NFile (mkFile rs)) = Ok t <->
  exists ts, Forall2 (fun r tr => Bytes (NRule r) = Ok tr) rs ts /\ t = List.concat (map (fun x => x ++ [nl]) ts).
Proof.
  assert (Hr : forall r x, Bytes (NRule r) = Ok x <-> rule_bad r = [] /\ x = rule_text r).
  { intros r x. rewrite Bytes_eq. cbn [node_bad node_text]. destruct (rule_bad r).
    - split; [intros H; inversion H; auto|intros [_ ->]; reflexivity].
    - split; [discriminate|intros [H _]; discriminate]. }
  rewrite Bytes_eq. cbn [node_bad node_text f_rules]. unfold file_text. cbn [f_rules]. split.
  - intros H. destruct (flat_map rule_bad rs) eqn:B; [|discriminate]. inversion H; subst; clear H.
    exists (map rule_text rs). rewrite map_map. split; [|reflexivity].
    induction rs as [|r rs IH]; cbn; constructor.
    + apply Hr. cbn in B. apply app_eq_nil in B. tauto.
    + apply IH. cbn in B. apply app_eq_nil in B. tauto.
  - intros [ts [H ->]].
    assert (B : flat_map rule_bad rs = [] /\ ts = map rule_text rs).
    { induction H as [|r x rs ts Hx _ [IH1 IH2]]; [split; reflexivity|]. apply Hr in Hx. destruct Hx as [Hb ->].
      cbn. rewrite Hb, IH1, <- IH2. split; reflexivity. }
    destruct B as [-> ->]. rewrite map_map. reflexivity.
Qed.

Theorem C19_file_is_its_rules :
  forall rs t,
    Bytes (NFile (mkFile rs)) = Ok t <->
    exists ts, Forall2 (fun r tr => Bytes (NRule r) = Ok tr) rs ts /\ t = List.concat (map (fun x => x ++ [nl]) ts).
Proof. exact bytes_file. Qed.
Print Assumptions C19_file_is_its_rules.

Example C19_example :
  Bytes (NFile (mkFile [ex_print; ex_print])) = Ok (ex_print_text ++ [nl] ++ ex_print_text ++ [nl]).
Proof. vm_compute. reflexivity. Qed.
