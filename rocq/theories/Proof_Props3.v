(** Captures of a run of the machine. *)
From Verif Require Import Base Model_Charset Model_Isa Model_Capture Model_Input Model_Code Model_VM Model_Pattern Spec_Peg Spec_Scope Spec_Run Spec_Props Proof_Eval Proof_Capture Proof_Props2.
Local Open Scope nat_scope.

Lemma ctree_ind' : forall (P : ctree -> Prop), (forall id st ln k, Forall P k -> P (CNode id st ln k)) -> forall t, P t.
Proof. intros P H. fix IH 1. intros [id st ln k]. apply H. revert k. fix IHk 1. intros [|t k]; constructor; [apply IH|apply IHk]. Qed.
Lemma in_order_dec' : forall ts, Forall (fun t => forall lo hi, nested lo hi t \/ ~ nested lo hi t) ts -> forall lo hi, in_order lo hi ts \/ ~ in_order lo hi ts.
Proof.
  induction ts as [|[id st ln k] ts IH]; intros H lo hi; cbn [in_order]; [left; exact I|]. apply Forall_cons_iff in H. destruct H as [H1 H2].
  destruct (H1 lo hi); [|right; tauto]. destruct (IH H2 (st + ln) hi); [left|right]; tauto.
Qed.
Lemma nested_dec : forall t lo hi, nested lo hi t \/ ~ nested lo hi t.
Proof.
  induction t as [id st ln k H] using ctree_ind'. intros lo hi. rewrite nested_eq. destruct (Nat.le_decidable lo st); [|right; tauto]. destruct (Nat.le_decidable (st + ln) hi); [|right; tauto].
  destruct (in_order_dec' k H st (st + ln)); [left|right]; tauto.
Qed.
Lemma in_order_dec : forall ts lo hi, in_order lo hi ts \/ ~ in_order lo hi ts.
Proof. intros ts. apply in_order_dec'. apply Forall_forall. intros t _. apply nested_dec. Qed.
Lemma bounded_dec : forall hi t, bounded hi t \/ ~ bounded hi t.
Proof.
  intros hi. induction t as [id st ln k H] using ctree_ind'. rewrite bounded_eq. destruct (Nat.le_decidable (st + ln) hi); [|right; tauto].
  assert (D : Forall (bounded hi) k \/ ~ Forall (bounded hi) k).
  { induction H as [|t k Ht Hk IH]; [left; constructor|]. rewrite Forall_cons_iff. destruct Ht, IH; tauto. }
  tauto.
Qed.
Lemma bounded_all_dec : forall hi ts, Forall (bounded hi) ts \/ ~ Forall (bounded hi) ts.
Proof. intros hi. induction ts as [|t ts IH]; [left; constructor|]. rewrite Forall_cons_iff. destruct (bounded_dec hi t), IH; tauto. Qed.

Lemma exec_success : forall bufsz CS check s thr p code (cs0 : CS) f o st, 0 < bufsz -> check_ok check s -> supported p -> compiled thr p code ->
  vm_exec bufsz none_table check None f code s tt cs0 = Some (ROk o st) -> o_ok o = true ->
  forall P : Prop, P \/ ~ P ->
  (forall c ts w', peg s check [] p 0 ([], cs0) (RSucc (o_pos o) ts) w' -> o_capt o = Some c -> flat1 c = ts -> P) -> P.
Proof.
  intros bufsz CS check s thr p code cs0 f o st Hb Hk Hp Hc H Ho P [HP|HP] HQ; [exact HP|]. exfalso.
  refine (exec_only bufsz Hb CS check s Hk thr p code None cs0 f _ Hp Hc H _). intros (r & [errs cs'] & HR).
  destruct (exec_is bufsz Hb CS check s Hk thr p code None cs0 r errs cs' f _ Hp Hc HR H) as (o' & st' & E1 & E2 & _). injection E1 as <- <-.
  destruct r as [|j ts|j]; cbn [agrees] in E2.
  - destruct E2; congruence.
  - destruct E2 as (_ & <- & c & E3 & E4). apply HP. eapply HQ; [exact HR|exact E3|exact E4].
  - destruct E2; congruence.
Qed.
Lemma captures_ordered : forall bufsz CS check s thr p code (cs0 : CS) f o st c, 0 < bufsz -> check_ok check s -> supported p -> compiled thr p code ->
  vm_exec bufsz none_table check None f code s tt cs0 = Some (ROk o st) -> o_ok o = true -> o_capt o = Some c -> no_and p ->
  in_order 0 (o_pos o) (flat1 c).
Proof.
  intros bufsz CS check s thr p code cs0 f o st c Hb Hk Hp Hc H Ho Hcap Hn. eapply exec_success; try eassumption; [apply in_order_dec|].
  intros c' ts w' HR E1 E2. rewrite Hcap in E1. injection E1 as <-. rewrite E2. eapply peg_orderly in HR; [|exact Hn|constructor]. apply HR.
Qed.
Lemma captures_bounded : forall bufsz CS check s thr p code (cs0 : CS) f o st c, 0 < bufsz -> check_ok check s -> supported p -> compiled thr p code ->
  vm_exec bufsz none_table check None f code s tt cs0 = Some (ROk o st) -> o_ok o = true -> o_capt o = Some c ->
  o_pos o <= List.length s /\ Forall (bounded (List.length s)) (flat1 c).
Proof.
  intros bufsz CS check s thr p code cs0 f o st c Hb Hk Hp Hc H Ho Hcap. split; (eapply exec_success; try eassumption).
  - apply Nat.le_decidable.
  - intros c' ts w' HR E1 E2. eapply peg_inside in HR; [|exact Hk|apply Nat.le_0_l]. apply HR.
  - apply bounded_all_dec.
  - intros c' ts w' HR E1 E2. rewrite Hcap in E1. injection E1 as <-. rewrite E2. eapply peg_inside in HR; [|exact Hk|apply Nat.le_0_l]. apply HR.
Qed.
(* ---------- patterns that run forever ---------- *)
Lemma loop_star : forall s CS check E i (w : world CS) r w', ~ peg s check E (PStar PEmpty) i w r w'.
Proof.
  intros s CS check E i w r w' H. remember (PStar PEmpty) as p eqn:Ep. induction H; try discriminate; injection Ep as ->.
  - inversion H.
  - inversion H; subst. apply IHpeg2. reflexivity.
  - inversion H.
  - inversion H; subst. apply IHpeg2. reflexivity.
Qed.
Definition lr_defs : frame := [("A"%string, PSeq (PNonTerm "A" None) (PLit [x61]))].
Lemma loop_left : forall s CS check E p i (w : world CS) r w', peg s check E p i w r w' -> (p = PNonTerm "A" None \/ p = PSeq (PNonTerm "A" None) (PLit [x61])) -> E = [lr_defs] -> False.
Proof.
  intros s CS check E p i w r w' H. induction H; intros [Ep|Ep] EE; try discriminate; injection Ep; intros; subst.
  - apply IHpeg1; auto.
  - apply IHpeg; auto.
  - apply IHpeg1; auto.
  - cbn in H. injection H as <- <-. apply IHpeg; auto.
Qed.
Lemma loops : forall s p, p = PStar PEmpty \/ p = PGrammar [("A"%string, PSeq (PNonTerm "A" None) (PLit [x61]))] "A" ->
  (exists code, compiled 100 p code) /\
  forall code f, compiled 100 p code -> vm_exec 4 none_table (fun _ cs _ _ _ _ _ => (cs, None)) None f code s tt tt = None.
Proof.
  intros s p Hp. split.
  - destruct Hp as [->| ->]; eexists; exists 50, (CState 0 0); do 2 eexists; (split; [vm_compute; reflexivity|vm_compute; reflexivity]).
  - intros code f Hc. refine (exec_forever 4 _ unit _ s _ 100 p code None tt _ Hc _ f); [lia|intros k cs bs j id fl cs' n H; discriminate| |].
    + destruct Hp as [->| ->]; (split; [cbn; tauto|]; split; [cbn; try tauto|cbn; tauto]). split; [repeat constructor; intros []|tauto].
    + intros r w' HR. destruct Hp as [->| ->]; [exact (loop_star _ _ _ _ _ _ _ _ HR)|]. inversion HR; subst. cbn in H2. injection H2 as <-. eapply loop_left; [eassumption|auto|reflexivity].
Qed.
