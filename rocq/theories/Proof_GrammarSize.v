(** The fast check that the program of a grammar fits into the bytecode is right. *)
From Coq Require Import ZArith String.
From Verif Require Import Base Model_Charset Model_Isa Model_Code Model_VM Model_Pattern Model_Re Spec_Scope Spec_Run Spec_Re Spec_Encode Spec_Grammars Spec_GrammarSize.
From Verif Require Import Proof_Emit Proof_Term Proof_Fits Proof_Grammars.
Local Open Scope nat_scope.

Section Closed.
(** what Optimize and the resolution of calls keep *)
Variable P : insn -> Prop.
Hypothesis Pnop : P INop.
Hypothesis Pjump : forall l, P (IJump l).
Hypothesis Pcall : forall l, P (ICall l).
Hypothesis Ptc : forall b l, P (ITestChar b l).
Hypothesis Pta : forall n l, P (ITestAny n l).
Hypothesis Pts : forall s l, P (ISet s) -> P (ITestSet s l).

Lemma upd_all : forall l i x, P x -> Forall P l -> Forall P (upd i x l).
Proof. intros l i x Hx F. rewrite Forall_forall in *. intros y Hy. apply Proof_Term.in_upd in Hy as [->|Hy]; auto. Qed.
Lemma next_all : forall p i, Forall P p -> next_insn p = Some i -> P i.
Proof.
  induction p as [|j p IH]; intros i F H; cbn in H; [discriminate|]. inversion F; subst. destruct (is_label_or_nop j); [auto|].
  injection H as <-. assumption.
Qed.
Lemma skipn_all : forall n l, Forall P l -> Forall P (skipn n l).
Proof. induction n; intros [|x l] F; cbn; auto. inversion F; auto. Qed.
Lemma resolve_all : forall lbls n i code r, Forall P code -> resolve_loop n i lbls code = inr r -> Forall P r.
Proof.
  intros lbls n. induction n as [|n IH]; intros i code r F H; cbn [resolve_loop] in H; [injection H as <-; exact F|].
  destruct (nth_error code i) as [j|]; [|eauto]. destruct j; eauto.
  destruct (assoc lbls name) as [l|]; [|discriminate H].
  destruct (next_insn (skipn (S i) code)) as [[]|];
    try (eapply IH; [|exact H]; apply upd_all; [apply Pcall|exact F]).
  eapply IH; [|exact H]. apply upd_all; [apply Pjump|].
  destruct (next_insn_label (skipn (S i) code)) as [[k|] []]; try exact F. apply upd_all; [exact Pnop|exact F].
Qed.
Lemma optimize_all : forall p, Forall P p -> Forall P (optimize p).
Proof.
  intros p F. unfold optimize. generalize (lbl_index p), (seq 0 (List.length p)). intros f l. revert p F.
  induction l as [|i l IH]; intros p F; cbn [fold_left]; [exact F|]. apply IH. unfold opt_step.
  destruct (nth_error p i) as [j|]; [|exact F]. destruct j; auto.
  - destruct (next_insn (skipn (f l0) p)) as [k|] eqn:E; [|exact F]. apply next_all in E; [|apply skipn_all, F].
    destruct k; try exact F; apply upd_all; auto.
  - destruct (nth_error p (S i)) as [k|] eqn:E; [|exact F]. apply nth_error_In in E.
    assert (K : P k) by (rewrite Forall_forall in F; apply F, E).
    destruct k; try exact F; apply upd_all; auto; apply upd_all; auto.
Qed.
End Closed.

Lemma resolve_len : forall lbls n i code r, resolve_loop n i lbls code = inr r -> List.length r = List.length code.
Proof.
  intros lbls n. induction n as [|n IH]; intros i code r H; cbn [resolve_loop] in H; [injection H as <-; reflexivity|].
  destruct (nth_error code i) as [j|]; [|eauto]. destruct j; eauto.
  destruct (assoc lbls name) as [l|]; [|discriminate H].
  destruct (next_insn (skipn (S i) code)) as [[]|]; try (apply IH in H; rewrite H; apply upd_len).
  apply IH in H. rewrite H, upd_len. destruct (next_insn_label (skipn (S i) code)) as [[k|] []]; try reflexivity. apply upd_len.
Qed.
Lemma optimize_len : forall p, List.length (optimize p) = List.length p.
Proof.
  intro p. unfold optimize. generalize (lbl_index p), (seq 0 (List.length p)). intros f l. revert p.
  induction l as [|i l IH]; intro p; cbn [fold_left]; [reflexivity|]. rewrite IH. unfold opt_step.
  destruct (nth_error p i) as [j|]; [|reflexivity]. destruct j; auto.
  - destruct (next_insn (skipn (f l0) p)) as [k|]; [|reflexivity]. destruct k; try reflexivity; apply upd_len.
  - destruct (nth_error p (S i)) as [k|]; [|reflexivity]. destruct k; try reflexivity; rewrite !upd_len; reflexivity.
Qed.
Lemma insn_size_6 : forall i, insn_size i <= 6.
Proof. destruct i; cbn; lia. Qed.
Lemma offset_6 : forall c k, (N.of_nat (offset_of c k) <= 6 * N.of_nat (List.length c))%N.
Proof.
  intros c k. eapply N.le_trans; [apply offset_sum|]. induction c as [|i c IH]; cbn [fold_right List.length]; [lia|].
  pose proof (insn_size_6 i). lia.
Qed.

Lemma some_inj : forall A (x y : A), Some x = Some y -> x = y. Proof. congruence. Qed.
(** the loop over the definitions puts the pieces together *)
Lemma gloop_pieces : forall thr n start used ds st code lbls ps, pieces thr n start used ds st = Some ps ->
  exists code' st' lbls', gloop thr n start used ds st code lbls = (COk code' st', lbls') /\
    N.of_nat (List.length code') = (N.of_nat (List.length code) + fold_right (fun c n => N.of_nat (List.length c) + 2 + n) 0 ps)%N /\
    forall P : insn -> Prop, (forall l, P (ILabel l)) -> P IReturn -> Forall P code -> Forall (Forall P) ps -> Forall P code'.
Proof.
  intros thr n start used. induction ds as [|[k v] ds IH]; intros st code lbls ps H; cbn [pieces gloop] in *.
  - apply some_inj in H. subst ps. exists code, st, lbls. split; [reflexivity|]. split; [cbn; lia|]. auto.
  - destruct (_ && _); [exact (IH _ _ _ _ H)|]. unfold new_label in *.
    destruct (compile_f thr n v _) as [fn st1| | |]; try discriminate H.
    destruct (pieces thr n start used ds st1) as [l|] eqn:E; [|discriminate H]. apply some_inj in H. subst ps.
    destruct (IH _ (code ++ [ILabel (S (cs_uniq st))] ++ fn ++ [IReturn]) (lbls ++ [(k, S (cs_uniq st))]) _ E) as (code' & st' & lbls' & G & L & F).
    exists code', st', lbls'. split; [exact G|]. split; [rewrite L, !app_length; cbn [List.length fold_right]; lia|].
    intros P P1 P2 F1 F2. inversion F2; subst. apply F; auto. apply Forall_app. split; [exact F1|]. constructor; [auto|]. apply Forall_app. split; [assumption|]. constructor; [exact P2|constructor].
Qed.

Definition fine (S : list cset) (i : insn) : Prop :=
  (forall id, In id (ids_of i) -> (-32768 <= id < 32768)%Z) /\ messages_of i = [] /\ checkers_of i = [] /\ incl (sets_of i) S.
Lemma flat_nil : forall A B (f : A -> list B) l, Forall (fun x => f x = []) l -> flat_map f l = [].
Proof. induction l as [|x l IH]; intro F; [reflexivity|]. inversion F as [|? ? H1 H2]; subst. cbn [flat_map]. rewrite H1. auto. Qed.
Lemma fine_impl : forall A (P Q : A -> Prop) l, (forall x, P x -> Q x) -> Forall P l -> Forall Q l.
Proof. intros A P Q l H F. rewrite Forall_forall in *. auto. Qed.
Ltac triv := split; [intros ? []|]; split; [reflexivity|]; split; [reflexivity|]; intros ? [].

Theorem grammar_fits_ok : forall thr n p m, grammar_fits thr n p m = true -> (forall x, ~ undefined x p) ->
  exists c st' pcode, compile thr (S n) p (CState 0 m) = COk c st' /\ encode c = Some pcode.
Proof.
  intros thr n p m H U. destruct p; try discriminate H. rename defs into defs0. cbn [grammar_fits] in H. cbv zeta in H.
  destruct (used_names (inline_all thr defs0)) as [|u us] eqn:Eu; [discriminate H|].
  destruct (pieces thr n start (u :: us) (inline_all thr defs0) (snd (new_label (CState 0 m)))) as [ps|] eqn:Ep; [|discriminate H].
  pose proof (compile_errors thr (S n) (PGrammar defs0 start) (CState 0 m)) as Ex.
  destruct (gloop_pieces thr n start (u :: us) (inline_all thr defs0) (CState 1 m) [IOpenCall start; IJump 1] [] ps Ep) as (code & st1 & lbls & G & L & F).
  assert (Ec : compile_f thr (S n) (PGrammar defs0 start) (CState 0 m) =
    match resolve lbls code with inl x => CNotFound x | inr c => COk (c ++ [ILabel 1]) st1 end).
  { rewrite compile_grammar. cbv zeta. rewrite Eu. cbn [cs_uniq cs_memo]. rewrite G. reflexivity. }
  unfold compile in *. rewrite Ec in *. destruct (resolve lbls code) as [x|c] eqn:Er; [destruct (U x Ex)|].
  unfold small_pieces in H. apply andb_prop in H as [H H3]. apply andb_prop in H as [H1 H2]. apply N.ltb_lt in H2. apply Nat.leb_le in H3.
  set (SS := fold_right cset_add [] (flat_map (flat_map sets_of) ps)) in *.
  assert (FF : Forall (fine SS) (optimize (c ++ [ILabel 1]))).
  { apply optimize_all; try solve [intros; triv].
    - intros s l Hs. split; [intros ? []|]. split; [reflexivity|]. split; [reflexivity|]. apply Hs.
    - apply Forall_app. split; [|constructor; [triv|constructor]]. eapply resolve_all; [..|exact Er]; try solve [intros; triv].
      apply F; [intro; triv|triv|constructor; [triv|constructor; [triv|constructor]]|].
      apply Forall_forall. intros q Hq. apply Forall_forall. intros i Hi.
      rewrite forallb_forall in H1. specialize (H1 q Hq). rewrite forallb_forall in H1. specialize (H1 i Hi).
      unfold plain_insn in H1. apply andb_prop in H1 as [I1 I2]. unfold short_ids in I1. rewrite forallb_forall in I1.
      split; [intros id Hid; specialize (I1 id Hid); apply andb_prop in I1 as [? ?]; lia|].
      destruct (messages_of i); [|discriminate I2]. destruct (checkers_of i); [|discriminate I2]. split; [reflexivity|]. split; [reflexivity|].
      intros s Hs. apply distinct_sets. apply in_flat_map. exists q. split; [exact Hq|]. apply in_flat_map. exists i. auto. }
  assert (LL : (6 * N.of_nat (List.length (optimize (c ++ [ILabel 1]))) < 16777216)%N).
  { rewrite optimize_len, app_length. unfold resolve in Er. apply resolve_len in Er. rewrite Er. cbn [List.length]. cbn [List.length] in L. lia. }
  assert (En : exists pcode, encode (optimize (c ++ [ILabel 1])) = Some pcode).
  { apply encode_iff. rewrite Forall_forall in FF. split.
    { intros x Hx. apply optimize_closed in Hx. apply in_app_iff in Hx as [Hx|[Hx|[]]]; [|discriminate Hx]. exact (resolve_closed _ _ _ Er x Hx). }
    split; [intros i id Hi; apply (FF i Hi)|].
    split; [intros i l _ _; pose proof (offset_6 (optimize (c ++ [ILabel 1])) (lbl_index (optimize (c ++ [ILabel 1])) l)); lia|].
    split; [exists SS; split; [exact H3|]; intros s Hs; apply in_flat_map in Hs as (i & Hi & Hs); apply (FF i Hi); exact Hs|].
    rewrite (flat_nil _ _ messages_of) by (apply Forall_forall; intros i Hi; apply (FF i Hi)).
    rewrite (flat_nil _ _ checkers_of) by (apply Forall_forall; intros i Hi; apply (FF i Hi)).
    split; [exists []; split; [cbn; lia|apply incl_refl]|cbn; lia]. }
  destruct En as (pcode & En). exists (optimize (c ++ [ILabel 1])), st1, pcode. split; [reflexivity|exact En].
Qed.

Lemma fits_compiled : forall thr n p m, grammar_fits thr n p m = true -> (forall x, ~ undefined x p) -> exists pcode, compiled thr p pcode.
Proof.
  intros thr n p m H U. destruct (grammar_fits_ok thr n p m H U) as (c & st' & pcode & E1 & E2).
  exists pcode. exists (S n), (CState 0 m), c, st'. auto.
Qed.
