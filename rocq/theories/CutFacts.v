(** Cutting a source into the texts of its rules. *)
From Verif Require Import Text GoAst Ast SpecPrint SpecTrim SpecUtf8 SpecSyntax SpecSource SpecLayout LayoutFacts SynShape.
From Coq Require Import NArith Arith Bool Lia.
Open Scope nat_scope.
Open Scope list_scope.

Section Cut.
  Variable gp : text -> res gexpr.
  Lemma no_skip_cut a z : no_skip (a ++ z) -> no_skip a.
  Proof. intros H k t -> K. exact (H k (t ++ z) (eq_sym (app_assoc _ _ _)) K). Qed.
  Lemma not_blank_eq : ~ blank "="%char.
  Proof. intros [X|[X|[X|X]]]; discriminate. Qed.
  Lemma left_blank w1 y b after' : ws w1 -> blank b -> w1 ++ str "=>" ++ y = b :: str "=>" ++ after' -> w1 = [b].
  Proof.
    intros W B E. destruct W as [|k z K W]; [cbn in E; injection E as <- _; elim (not_blank_eq B)|].
    destruct K as [d D|a N]; [|cbn in E; injection E as <- _; destruct B as [X|[X|[X|X]]]; discriminate]. cbn in E. injection E as -> E.
    destruct W as [|k z K W]; [reflexivity|]. exfalso. destruct (skip_first k K) as (d & k' & -> & H). cbn in E. injection E as -> _. destruct H as [H|H]; [exact (not_blank_eq H)|discriminate].
  Qed.
  Lemma rule_cut a z t r : rule_form gp (a ++ z) t r -> rule_form gp a t r.
  Proof.
    intros [m vm ct c w1 w2 bt b w3 res vr Vm Cf W1 W2 Bf W3 Vr Ve]. apply rule_intro; auto.
    - destruct Cf as [|u u' c e d after' U U' Nc Ns Na Ea Bd R]; [constructor|]. pose proof (left_blank _ _ _ _ W1 Bd Ea) as ->.
      eapply cond_some; try eassumption; [|reflexivity]. apply (no_skip_cut _ z). rewrite <- !app_assoc in *. exact Ns.
    - destruct Bf as [|b cb after' Nb Fb Ea Bc]; [constructor|]. pose proof (value_nonempty gp _ _ Vr) as N.
      destruct w3 as [|d w3]; [destruct res as [|d res]; [congruence|]|]; cbn [app] in Ea |- *; injection Ea as -> _; (eapply block_some; [exact Nb|exact Fb|reflexivity|exact Bc]).
    - destruct Ve as [V1 V2]. split.
      + intros I. destruct (V1 I) as [A B]. split; [intros d t' -> ; exact (A d (t' ++ z) eq_refl)|].
        intros w x w' after' Ww X Ww' ->. apply (B w x w' (after' ++ z) Ww X Ww'). rewrite <- !app_assoc. reflexivity.
      + intros I d t' ->. exact (V2 I d (t' ++ z) eq_refl).
  Qed.
  (** The last byte of a piece is an ASCII character. *)
  Definition plain_end (t : text) : Prop := exists a c, t = a ++ [c] /\ (byte_val c < 128)%N.
  Lemma plain_app a b : plain_end b -> plain_end (a ++ b).
  Proof. intros (u & c & -> & H). exists (a ++ u), c. rewrite app_assoc. auto. Qed.
  Lemma plain_one c : (byte_val c < 128)%N -> plain_end [c].
  Proof. intros H. exists [], c. auto. Qed.
  Lemma blank_byte c : blank c -> (byte_val c < 128)%N.
  Proof. intros [->|[->|[->| ->]]]; vm_compute; reflexivity. Qed.
  Lemma word_byte c : word_char c -> (byte_val c < 128)%N.
  Proof. intros W. destruct c as [[] [] [] [] [] [] [] []]; try (vm_compute; reflexivity); exfalso; destruct W as [X|[X|[X|X]]]; discriminate. Qed.
  Lemma ident_plain t : ident t -> plain_end t.
  Proof.
    intros (c & u & -> & L & F). assert (Fc : Forall word_char (c :: u)) by (constructor; [right; left; exact L|exact F]).
    destruct (@exists_last _ (c :: u)) as (a & d & E); [discriminate|]. rewrite E in *. exists a, d. split; [reflexivity|]. rewrite Forall_app in Fc. destruct Fc as [_ Fd]. inversion Fd; subst. apply word_byte. assumption.
  Qed.
  Lemma value_plain t v : value_form gp t v -> plain_end t.
  Proof.
    assert (P : plain_end (str ")")) by (apply plain_one; vm_compute; reflexivity).
    intros [u x E|b w o opst ops ell el trl tr w' _ _ _ _ _ _ _]; [destruct E as [u e [f w a x' more w' _ _ _ _ _] _|u I|]|].
    - repeat apply plain_app. exact P.
    - apply ident_plain. exact I.
    - apply plain_one. vm_compute. reflexivity.
    - repeat apply plain_app. exact P.
  Qed.
  Lemma ws_plain w : ws w -> w = [] \/ plain_end w.
  Proof.
    induction 1 as [|k t K W IH]; [left; reflexivity|]. right. destruct IH as [->|IH]; [rewrite app_nil_r|apply plain_app; exact IH].
    destruct K as [c B|a N]; [apply plain_one; apply blank_byte; exact B|]. do 2 apply plain_app. apply plain_one. vm_compute. reflexivity.
  Qed.
  Lemma rule_plain after t r : rule_form gp after t r -> plain_end t.
  Proof. intros [m vm ct c w1 w2 bt b w3 res vr _ _ _ _ _ _ Vr _]. repeat apply plain_app. exact (value_plain _ _ Vr). Qed.

  Lemma source_cut t rs : source_form gp t rs -> exists pieces, t = List.concat pieces /\ Forall2 (fun p r => source_form gp p [r]) pieces rs /\ Forall plain_end pieces.
  Proof.
    induction 1 as [|w t w' rest r rs W W' R _ (ps & -> & F & P)]; [exists []; repeat split; constructor|].
    exists ((w ++ t ++ w') :: ps). split; [cbn [List.concat]; rewrite <- !app_assoc; reflexivity|]. split.
    2:{ constructor; [|exact P]. apply plain_app. destruct (ws_plain w' W') as [->|Q]; [rewrite app_nil_r; exact (rule_plain _ _ _ R)|apply plain_app; exact Q]. }
    constructor; [|exact F]. pose proof (source_cons gp w t w' [] r [] W W') as C. rewrite !app_nil_r in C. apply C; [exact (rule_cut _ _ _ _ R)|constructor].
  Qed.
End Cut.
Lemma utf8_pieces ps : Forall plain_end ps -> utf8 (List.concat ps) -> Forall utf8 ps.
Proof.
  induction 1 as [|p ps (a & c & -> & H) P IH]; intros U; [constructor|]. cbn [List.concat] in U. rewrite <- app_assoc in U. destruct (utf8_cut c (List.concat ps) H a U) as [Ua Uc].
  constructor; [apply utf8_app; [exact Ua|apply utf8_ascii; repeat constructor; exact H]|]. apply IH. exact (utf8_tail c _ H Uc).
Qed.
