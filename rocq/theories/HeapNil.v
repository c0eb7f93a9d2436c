(** Facts about nil pointers met by the printer, and programs that only read. *)
From Verif Require Import Text GoAst Ast Printer Smt Expand Heap HeapWalk HeapPrint SpecHeap SpecNil HeapFacts HeapPrintFacts Conc SpecConc.
From Coq Require Import Arith Lia Bool.

Lemma app_eq_len {A} (a a' b b' : list A) : a ++ b = a' ++ b' -> List.length a = List.length a' -> a = a' /\ b = b'.
Proof. revert a'. induction a as [|x a IH]; intros [|y a']; cbn; try discriminate; auto. intros [= -> E] [= L]. destruct (IH _ E L) as [-> ->]. auto. Qed.
Lemma slice_at_fun g sl ws ws' : slice_at g sl ws -> slice_at g sl ws' -> ws = ws'.
Proof.
  intros [L H] [L' H']. destruct H as [->|(a & b & E & La)].
  - rewrite L in L'. destruct ws'; [reflexivity|discriminate].
  - destruct H' as [->|(a' & b' & E' & La')]; [rewrite L' in L; destruct ws; [reflexivity|discriminate]|].
    rewrite E in E'. injection E' as E'. apply app_eq_len in E'; [|congruence]. destruct E' as [_ E']. apply app_eq_len in E'; [apply E'|congruence].
Qed.

Section Nil.
  Variables (g : nat -> option cell) (h : heap).
  Hypothesis S : sub g (nth_error h).

  Lemma tree_no_nil w : holds_nil g w -> forall v, ~ value_at g w v.
  Proof.
    induction 1 as [| |p c ws w G Sl I _ IH]; intros v V; inversion V as [a c' s0 ws' G' Eb O Et Ei Ex Sl' F El Er|a e0 G'|x|]; subst.
    rewrite G in G'. injection G' as <-. pose proof (slice_at_fun _ _ _ _ Sl Sl') as <-. clear -F I IH. induction F as [|x t ws ts V F IHF]; [destruct I|]. destruct I as [<-|I]; [exact (IH _ V)|auto].
  Qed.

  Section W.
    Context {W : Type}.
    Variable write : W -> text -> W * option text.
    Lemma nil_args n args : forall ws2 ws1 p, slice_at g args (ws1 ++ ws2) ->
      Forall (fun w => (exists v, value_at g w v /\ height v <= n) \/ (forall p, hp_value write n w p h = (h, Panic nil_deref))) ws2 ->
      (exists vs, Forall2 (value_at g) ws2 vs /\ Forall (fun v => height v <= n) vs) \/
      hp_args write (hp_value write n) args (List.length ws2) (List.length ws1) p h = (h, Panic nil_deref).
    Proof.
      induction ws2 as [|w ws2 IH]; intros ws1 p Sl F; [left; exists []; split; constructor|]. inversion F as [|? ? Hw F']; subst. cbn [List.length hp_args].
      assert (A : at_ args (List.length ws1) h = (h, Ok w)) by (eapply at_ok; [exact S|exact Sl|]; rewrite nth_error_app2, Nat.sub_diag by auto; reflexivity).
      rewrite (mbind_ok _ _ _ _ _ A). destruct Hw as [(v & V & Hv)|Hw].
      - rewrite (mbind_ok _ _ _ _ _ (value_ok write g h S v n w _ Hv V)). specialize (IH (ws1 ++ [w]) (p_value write v (printf write (str " ") p))).
        rewrite <- app_assoc, app_length in IH. cbn [List.length app] in IH. rewrite Nat.add_1_r in IH. destruct (IH Sl F') as [(vs & Vs & Hs)|E]; [|right; exact E].
        left. exists (v :: vs). split; constructor; assumption.
      - right. rewrite (mbind_panic _ _ _ _ _ (Hw _)). reflexivity.
    Qed.
    Lemma nil_value n : forall w, shaped g n w ->
      (exists v, value_at g w v /\ height v <= n) \/ (holds_nil g w /\ forall p, hp_value write n w p h = (h, Panic nil_deref)).
    Proof.
      induction n as [|n IH]; intros w Sh; [destruct Sh|]. destruct w as [[a|]|[a|]|x| |r]; cbn [shaped] in Sh.
      - destruct Sh as (c & ws & o & ai & ax & G & O & Ei & Ex & Sl & Fs).
        assert (D : (exists vs, Forall2 (value_at g) ws vs /\ Forall (fun v => height v <= n) vs) \/ (exists w, In w ws /\ holds_nil g w)).
        { clear -IH Fs. induction Fs as [|w ws Hw F IHF]; [left; exists []; split; constructor|]. destruct (IH w Hw) as [(v & V & Hv)|[N _]]; [|right; exists w; cbn; auto].
          destruct IHF as [(vs & Vs & Hs)|(w' & I & N)]; [left; exists (v :: vs); split; constructor; assumption|right; exists w'; cbn; auto]. }
        destruct D as [(vs & Vs & Hs)|(w & I & N)].
        + left. exists (SExp (mkSExpr (h_binding c) o (h_type c) ai ax vs (h_ellipsis c) (h_trailing c))). split; [econstructor; cbn; eauto|]. cbn [height s_args]. apply le_n_S. clear -Hs. induction Hs; cbn; lia.
        + right. split; [econstructor; eauto|]. intros p. cbn [hp_value]. rewrite (mbind_ok _ _ _ _ _ (get_sexpr_ok _ _ _ (S _ _ G))). cbn zeta. rewrite (mbind_ok _ _ _ _ _ (op_ok write g h S _ _ _ O)). cbn beta.
          rewrite (mbind_ok _ _ _ _ _ (opt_ok write g h S _ _ _ _ _ Ei)). cbn beta. rewrite (mbind_ok _ _ _ _ _ (opt_ok write g h S _ _ _ _ _ Ex)). cbn beta.
          assert (L : sl_len (h_args c) = List.length ws) by apply Sl. rewrite L.
          assert (A : Forall (fun w => (exists v, value_at g w v /\ height v <= n) \/ (forall p, hp_value write n w p h = (h, Panic nil_deref))) ws).
          { eapply Forall_impl; [|exact Fs]. intros x Hx. destruct (IH x Hx) as [V|[_ P]]; auto. }
          match goal with |- context[hp_args write _ _ _ _ ?q] => destruct (nil_args n (h_args c) ws [] q Sl A) as [(vs & Vs & _)|E] end.
          * exfalso. clear -I N Vs. induction Vs as [|x t ws ts V F IHF]; [destruct I|]. destruct I as [<-|I]; [exact (tree_no_nil _ N _ V)|auto].
          * cbn [List.length] in E. rewrite (mbind_panic _ _ _ _ _ E). reflexivity.
      - right. split; [constructor|reflexivity].
      - left. destruct Sh as [e G]. exists (EVal e). split; [constructor; exact G|cbn; lia].
      - right. split; [constructor|reflexivity].
      - left. exists (Var x). split; [constructor|cbn; lia].
      - left. exists NilValue. split; [constructor|cbn; lia].
      - destruct Sh.
    Qed.
    Lemma nil_rule n q : shaped_rule g n q ->
      (exists r, rule_at g (WRule (Some q)) r /\ rule_height r <= n) \/
      (rule_holds_nil g q /\ forall p, hp_rule write n (Some q) p h = (h, Panic nil_deref)).
    Proof.
      intros (c & o & G & Sm & Ec & Sr). destruct (nil_value n _ Sm) as [(m & Vm & Hm)|[N P]].
      - destruct (nil_value n _ Sr) as [(x & Vx & Hx)|[N P]].
        + left. exists (mkRule m o (h_block c) x). split; [exists q, c; auto 10|unfold rule_height; cbn; lia].
        + right. split; [exists c; auto|]. intros p. cbn [hp_rule]. pose proof (get_rule_ok _ _ _ (S _ _ G)) as R.
          rewrite (mbind_ok _ _ _ _ _ R), (mbind_ok _ _ _ _ _ (value_ok write g h S m n _ _ Hm Vm)), (mbind_ok _ _ _ _ _ R), run_bind.
          assert (C : exists p', (match h_cond c with None => ret (p_value write m p) | Some _ => hp_expr write (h_cond c) (printf write (str " && ") (p_value write m p)) end : M _) h = (h, Ok p')).
          { destruct (h_cond c) as [x|], o as [e|]; cbn in Ec; try contradiction; eexists; [apply (expr_ok write g h S _ _ _ Ec)|reflexivity]. }
          destruct C as [p' C]. rewrite C. apply P.
      - right. split; [exists c; auto|]. intros p. cbn [hp_rule]. pose proof (get_rule_ok _ _ _ (S _ _ G)) as R. rewrite (mbind_ok _ _ _ _ _ R), (mbind_panic _ _ _ _ _ (P _)). reflexivity.
    Qed.
    Lemma nil_Fprint n w0 q : (forall p, hp_rule write n (Some q) p h = (h, Panic nil_deref)) -> hp_Fprint write n w0 (PWord (WRule (Some q))) h = (h, Panic nil_deref).
    Proof. intros P. unfold hp_Fprint. cbn [hp_node]. rewrite (mbind_panic _ _ _ _ _ (P _)). reflexivity. Qed.
  End W.
  Lemma nil_Generate n q : (forall p, hp_rule buf_write n (Some q) p h = (h, Panic nil_deref)) -> hg_Generate n (Some q) h = (h, Panic nil_deref).
  Proof.
    intros P. unfold hg_Generate, hg_generate, hp_Bytes. rewrite run_bind. cbn zeta. rewrite run_bind, run_bind, (nil_Fprint buf_write n [] q P). reflexivity.
  Qed.
  Lemma tree_rule_no_nil q r : rule_at g (WRule (Some q)) r -> ~ rule_holds_nil g q.
  Proof.
    intros (q' & c & E & G & Vm & _ & _ & Vr) (c' & G' & N). inversion E; subst. rewrite G in G'. injection G' as <-. destruct N as [N|N]; [exact (tree_no_nil _ N _ Vm)|exact (tree_no_nil _ N _ Vr)].
  Qed.
End Nil.

(** ** Programs that only read *)
Inductive readonly {A} : prog A -> Prop :=
| ro_done r : readonly (Done r)
| ro_load p k : (forall o, readonly (k o)) -> readonly (Load p k).
Lemma ro_bind {A B} (m : M A) (k : A -> M B) : readonly m -> (forall a, readonly (k a)) -> readonly (mbind m k).
Proof. intros R K. induction R as [[a|e|x]|p j R IH]; cbn [mbind]; try constructor; auto. Qed.
Lemma ro_mwrap {A} p (m : M A) : readonly m -> readonly (mwrap p m).
Proof. intros R. induction R; cbn [mwrap]; constructor; auto. Qed.
Lemma ro_ret {A} (a : A) : readonly (ret a). Proof. constructor. Qed.
Lemma ro_get a : readonly (get a). Proof. constructor. intros [c|]; constructor. Qed.
Create HintDb ro.
Global Hint Resolve ro_ret ro_get ro_done : ro.
Ltac ro := repeat first
  [ progress intros
  | apply ro_bind
  | apply ro_mwrap
  | progress auto with ro
  | match goal with |- readonly (match ?x with _ => _ end) => destruct x end
  | match goal with |- readonly (if ?x then _ else _) => destruct x end
  | constructor ].
Lemma ro_get_sexpr a : readonly (get_sexpr a). Proof. unfold get_sexpr. ro. Qed.
Lemma ro_get_rule a : readonly (get_rule a). Proof. unfold get_rule. ro. Qed.
Lemma ro_get_arr a : readonly (get_arr a). Proof. unfold get_arr. ro. Qed.
Global Hint Resolve ro_get_sexpr ro_get_rule ro_get_arr : ro.
Lemma ro_at sl i : readonly (at_ sl i). Proof. unfold at_. ro. Qed.
Global Hint Resolve ro_at : ro.
Section RO.
  Context {W : Type}.
  Variable write : W -> text -> W * option text.
  Lemma ro_op o p : readonly (hp_op write o p). Proof. destruct o; cbn [hp_op]; ro. Qed.
  Lemma ro_expr x p : readonly (hp_expr write x p). Proof. destruct x; cbn [hp_expr]; ro. Qed.
  Lemma ro_opt x a b p : readonly (hp_opt write x a b p). Proof. unfold hp_opt. pose proof ro_expr. ro. Qed.
  Lemma ro_args e args k : (forall w p, readonly (e w p)) -> forall j p, readonly (hp_args write e args k j p).
  Proof. intros E. induction k; intros j p; cbn [hp_args]; ro. Qed.
  Lemma ro_value fuel : forall w p, readonly (hp_value write fuel w p).
  Proof.
    pose proof ro_op. pose proof ro_opt. pose proof ro_expr. induction fuel as [|fuel IH]; intros w p; cbn [hp_value]; [ro|].
    destruct w as [[a|]|a|x| |r]; cbn zeta; ro. apply ro_args. exact IH.
  Qed.
  Lemma ro_rule fuel r p : readonly (hp_rule write fuel r p).
  Proof. pose proof ro_value. pose proof ro_expr. destruct r; cbn [hp_rule]; cbn zeta; ro. Qed.
  Lemma ro_rules fuel sl k : forall j p, readonly (hp_rules write fuel sl k j p).
  Proof. pose proof ro_rule. induction k; intros j p; cbn [hp_rules]; ro. Qed.
  Lemma ro_Fprint fuel w n : readonly (hp_Fprint write fuel w n).
  Proof.
    pose proof ro_value. pose proof ro_rule. pose proof ro_rules. unfold hp_Fprint. apply ro_bind; [|ro].
    destruct n as [[f|]|w']; cbn [hp_node]; [ro|ro|destruct w'; auto].
  Qed.
End RO.
Lemma ro_Bytes fuel n : readonly (hp_Bytes fuel n).
Proof. unfold hp_Bytes. apply ro_bind; [apply ro_Fprint|]. ro. Qed.
Lemma ro_gargs c e args k : (forall w t g, readonly (e w t g)) -> forall j ps g, readonly (hg_args c e args k j ps g).
Proof. intros E. induction k; intros j ps g; cbn [hg_args]; ro. Qed.
Lemma ro_eval fuel : forall w t g, readonly (hg_eval fuel w t g).
Proof.
  induction fuel as [|fuel IH]; intros w t g; cbn [hg_eval]; [ro|]. destruct w as [[a|]|a|x| |r]; ro. apply ro_gargs. exact IH.
Qed.
Lemma ro_Generate fuel r : readonly (hg_Generate fuel r).
Proof. pose proof ro_eval. pose proof ro_Bytes. unfold hg_Generate, hg_generate. apply ro_bind; [|ro]. cbn zeta. apply ro_bind; [auto|]. intros t. destruct r; ro. Qed.
Lemma ro_run {A} (m : M A) : readonly m -> forall h, fst (m h) = h.
Proof. intros R. induction R; intros h; cbn [run]; auto. Qed.

Lemma ro_walk_parts ps : readonly (h_walk_parts ps).
Proof. induction ps as [|[] ps IH]; cbn [h_walk_parts]; ro. Qed.
Lemma ro_walk_op o : readonly (h_walk_op o).
Proof. pose proof ro_walk_parts. destruct o; cbn [h_walk_op]; ro. Qed.
Lemma ro_walk_args e args k : (forall w b, readonly (e w b)) -> forall j b, readonly (h_walk_args e args k j b).
Proof. intros E. induction k; intros j b; cbn [h_walk_args]; ro. Qed.
Lemma ro_walk f fuel : forall w b, readonly (h_walk f fuel w b).
Proof.
  pose proof ro_walk_op. induction fuel as [|fuel IH]; intros w b; cbn [h_walk]; [ro|]. destruct b; [ro|]. destruct w as [[a|]|a|x| |r]; cbn zeta; ro. apply ro_walk_args. exact IH.
Qed.
Lemma ro_has f fuel r : readonly (h_has f fuel r).
Proof. pose proof ro_walk. destruct r; cbn [h_has]; ro. Qed.
Definition calls_reader (c : call) : Prop := match c with CallHas _ _ _ | CallPrint _ _ | CallGenerate _ _ => True | _ => False end.
Lemma ro_start c : calls_reader c -> readonly (start c).
Proof. destruct c; cbn [start calls_reader]; try contradiction; intros _; (apply ro_bind; [|intros; apply ro_ret]); [apply ro_has|apply ro_Bytes|apply ro_Generate]. Qed.
Lemma in_firstn {A} n : forall (l : list A) x, In x (firstn n l) -> In x l.
Proof. induction n; intros [|a l] x; cbn; auto; [intros []|intros [->|I]; auto]. Qed.
Lemma in_skipn {A} n : forall (l : list A) x, In x (skipn n l) -> In x l.
Proof. induction n; intros [|a l] x; cbn; auto. Qed.
Lemma ro_schedule s tr s' : schedule s tr s' -> Forall readonly (fst s) -> Forall (fun x => exists p, snd x = Reads p) tr /\ snd s' = snd s.
Proof.
  intros S. induction S as [s|gs h i g a g' h' tr s E St S IH]; intros R; [split; [constructor|reflexivity]|]. cbn [fst snd] in *.
  rewrite Forall_forall in R. pose proof (R _ (nth_error_In _ _ E)) as Rg. destruct St as [p k h|c k h|p c k h]; inversion Rg as [|? ? K]; subst.
  destruct IH as [F X].
  - unfold with_nth. apply Forall_app. split; [apply Forall_forall; intros x Ix; apply R; eapply in_firstn; exact Ix|]. constructor; [apply K|].
    apply Forall_forall. intros x Ix. apply R. eapply in_skipn. exact Ix.
  - split; [constructor; [exists p; reflexivity|exact F]|exact X].
Qed.
