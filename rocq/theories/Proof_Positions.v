(** The positions on the stack never lie behind the current one, and captures never reach back before the
    start of the input. *)
From Verif Require Import Base Model_Charset Model_Isa Model_Input Model_Capture Model_Code Model_VM Model_Pattern Spec_Run Spec_Positions Proof_Codegen Proof_Machine Proof_Emit Proof_Encode Proof_Optimize Proof_SafeMain.
Local Open Scope nat_scope.

(* ---------- the stack ---------- *)
(** the parts of an entry that matter here *)
Inductive pk := PRet (r : nat) | PBt (ip off : nat) | PPos (pos : nat) | PCapt (pos : nat).
Definition pk_of (k : skind) : pk :=
  match k with
  | KRet r => PRet r | KBtrack ip off => PBt ip off | KMemo _ pos => PPos pos
  | KTree _ pos _ => PPos pos | KCheck _ _ pos => PPos pos | KCapt _ pos => PCapt pos
  end.
Fixpoint below (l : list pk) (hi : nat) : Prop :=
  match l with
  | [] => True
  | PRet _ :: l => below l hi
  | PBt _ off :: l => off <= hi /\ below l off
  | PPos pos :: l => pos <= hi /\ below l pos
  | PCapt pos :: l => pos <= hi /\ below l hi
  end.
Lemma below_le : forall l a b, a <= b -> below l a -> below l b.
Proof. induction l as [|[] l IH]; intros a b H Hl; cbn [below] in *; [exact I|eauto| | |]; destruct Hl; split; try lia; eauto. Qed.
Lemma below_tl : forall l a, below l a -> below (tl l) a.
Proof. intros [|[] l] a H; cbn [below tl] in *; try exact H; destruct H; try assumption; eapply below_le; eassumption. Qed.
Lemma below_skip : forall n l a, below l a -> below (skipn n l) a.
Proof. induction n as [|n IH]; intros l a H; [exact H|]. apply below_tl in H. destruct l; [exact I|]. apply IH. exact H. Qed.
(** addresses on the stack *)
Definition pok (A : nat -> nat -> Prop) (k : pk) : Prop := match k with PRet r => A r 0 | PBt ip _ => A ip 0 | _ => True end.

Section Sim.
Variable bufsz : nat.
Variable T : Type.
Variable ops : table_ops T.
Variable CS : Type.
Variable check : nat -> CS -> list byte -> list byte -> nat -> Z -> Z -> CS * option nat.
Variable intrvl : option (nat * nat).
Notation mstate := (mstate T CS).
Definition pks (st : mstate) : list pk := map (fun e => pk_of (s_kind e)) (m_stk st).
(** [A a x]: address [a] may be reached at position [x] *)
Variable A : nat -> nat -> Prop.
Hypothesis A_le : forall a x y, x <= y -> A a x -> A a y.
Definition PI (st : mstate) : Prop := below (pks st) (mpos st) /\ Forall (pok A) (pks st) /\ A (m_ip st) (mpos st).
Definition res_ok (r : step_res T CS) : Prop := match r with Next st => PI st | _ => True end.

Lemma adv_some : forall i n, (i_nchunk i =? 0) = false -> i_pos (snd (i_advance bufsz i n)) = i_pos i + n.
Proof.
  intros i n E. unfold i_advance. rewrite E. cbv zeta.
  repeat match goal with |- context [if ?c then _ else _] => destruct c end; unfold i_pos, i_refill; cbn [snd i_base i_coff]; lia.
Qed.
Lemma adv_le : forall i n, i_pos i <= i_pos (snd (i_advance bufsz i n)).
Proof.
  intros i n. destruct (i_nchunk i =? 0) eqn:E; [unfold i_advance; rewrite E; apply le_n|]. rewrite adv_some by exact E. lia.
Qed.
Lemma adv_ok : forall i n, fst (i_advance bufsz i n) = true -> i_pos (snd (i_advance bufsz i n)) = i_pos i + n.
Proof. intros i n H. apply adv_some. unfold i_advance in H. destruct (i_nchunk i =? 0); [discriminate|reflexivity]. Qed.
Lemma adv1_peek : forall i b, fst (i_peek i) = Some b -> i_pos (snd (i_advance bufsz (snd (i_peek i)) 1)) = i_pos i + 1.
Proof.
  intros i b H. rewrite adv_some; [reflexivity|]. unfold i_peek in H. cbn [fst] in H. change (i_nchunk (snd (i_peek i))) with (i_nchunk i).
  destruct (i_nchunk i =? 0); [discriminate|reflexivity].
Qed.
Lemma peek_pos : forall i, i_pos (snd (i_peek i)) = i_pos i. Proof. reflexivity. Qed.
Lemma seek_pos : forall i p, i_pos (snd (i_seek bufsz i p)) = p.
Proof.
  intros i p. unfold i_seek. destruct ((_ <? _) && (_ <=? _)) eqn:E; cbn [snd].
  - apply andb_true_iff in E. destruct E as [_ E]. apply Nat.leb_le in E. unfold i_pos. cbn. lia.
  - unfold i_pos. cbn. lia.
Qed.

Lemma pks_add : forall cs (st : mstate), pks (add cs st) = pks st /\ mpos (add cs st) = mpos st /\ m_ip (add cs st) = m_ip st.
Proof. intros cs [ip src stk base tbl er c rg]. unfold pks, add. destruct stk as [|[k c0] stk]; repeat split. Qed.
Lemma pks_pop : forall b (st : mstate), pks (snd (pop b st)) = tl (pks st) /\ mpos (snd (pop b st)) = mpos st /\ m_ip (snd (pop b st)) = m_ip st.
Proof.
  intros b [ip src stk base tbl er c rg]. unfold pop. destruct stk as [|e stk]; [repeat split|]. destruct b; cbn [snd m_stk]; [|repeat split].
  match goal with |- context [add ?x ?y] => destruct (pks_add x y) as (E1 & E2 & E3); rewrite E1, E2, E3 end. repeat split.
Qed.
Lemma pks_node : forall id a b c (st : mstate), pks (add_node intrvl id a b c st) = pks st /\ mpos (add_node intrvl id a b c st) = mpos st.
Proof.
  intros. unfold add_node. destruct (ivl_overlaps intrvl a b); [|split; reflexivity].
  match goal with |- context [add ?x ?y] => destruct (pks_add x y) as (E1 & E2 & _); rewrite E1, E2 end. split; reflexivity.
Qed.
Lemma do_fail_ok : forall stk st, below (map (fun e => pk_of (s_kind e)) stk) (mpos st) -> Forall (pok A) (map (fun e => pk_of (s_kind e)) stk) ->
  A (m_ip st) (mpos st) -> res_ok (do_fail bufsz ops intrvl stk st).
Proof.
  induction stk as [|[k c] stk IH]; intros st Hb Ha Hi; [exact I|]. cbn [map s_kind do_fail] in *. inversion Ha as [|? ? Hk Hs]; subst.
  destruct k; cbn [pk_of below] in Hb; try (apply IH; [| |exact Hi]; [|exact Hs]; destruct Hb as [Hb1 Hb2]; try exact Hb2; revert Hb2; apply below_le; exact Hb1);
    try (apply IH; assumption).
  - destruct Hb as [Hb1 Hb2]. unfold res_ok, PI, pks, mpos, set_ip, set_src, set_stk. cbn [m_ip m_src m_stk]. rewrite seek_pos.
    split; [exact Hb2|]. split; [exact Hs|]. cbn [pok pk_of] in Hk. apply (A_le _ 0); [lia|exact Hk].
  - destruct Hb as [Hb1 Hb2]. split; [|split; [exact Hs|exact Hi]]. cbn. revert Hb2. apply below_le. exact Hb1.
Qed.
Lemma fail_ok : forall st, PI st -> res_ok (fail bufsz ops intrvl st).
Proof. intros st (H1 & H2 & H3). apply do_fail_ok; assumption. Qed.
Lemma PI_moved : forall st st', PI st -> pks st' = pks st -> mpos st <= mpos st' -> m_ip st' = m_ip st -> PI st'.
Proof. intros st st' (H1 & H2 & H3) E1 E2 E3. unfold PI. rewrite E1, E3. split; [eapply below_le; eassumption|]. split; [assumption|]. eapply A_le; eassumption. Qed.
Lemma PI_to : forall st st' a, PI st -> pks st' = pks st -> mpos st <= mpos st' -> A a (mpos st') -> PI (set_ip a st').
Proof. intros st st' a (H1 & H2 & H3) E1 E2 E3. unfold PI. change (pks (set_ip a st')) with (pks st'). rewrite E1. split; [eapply below_le; eassumption|]. split; [assumption|exact E3]. Qed.
Lemma span_ok : forall f s (st : mstate), pks (span_loop bufsz f s st) = pks st /\ mpos st <= mpos (span_loop bufsz f s st).
Proof.
  induction f as [|f IH]; intros s st; cbn [span_loop]; unfold peek; destruct (i_peek (m_src st)) as [o s0] eqn:E;
    assert (Ep : i_pos s0 = i_pos (m_src st)) by (change s0 with (snd (o, s0)); rewrite <- E; reflexivity);
    (assert (Z : pks (set_src s0 st) = pks st /\ mpos st <= mpos (set_src s0 st)) by (split; [reflexivity|unfold mpos; cbn; lia])); destruct o as [b|]; try exact Z.
  destruct (cs_has s b); [|exact Z]. destruct (IH s (advance1 bufsz (set_src s0 st))) as [I1 I2]. rewrite I1. split; [reflexivity|].
  eapply Nat.le_trans; [|exact I2]. unfold advance1, mpos. cbn. rewrite <- Ep. apply adv_le.
Qed.
Lemma close_ok : forall n id (st : mstate), exists d, pks (tree_close n id st) = skipn d (pks st) /\ mpos (tree_close n id st) = mpos st.
Proof.
  induction n as [|n IH]; intros id st; [exists 0; split; reflexivity|]. cbn [tree_close].
  destruct (m_stk st) as [|[k c] stk] eqn:E; [exists 0; split; reflexivity|]. destruct k; try (exists 0; split; reflexivity).
  destruct (_ =? _)%Z; [|exists 0; split; reflexivity]. destruct (IH id (snd (pop true st))) as (d & D1 & D2). destruct (pks_pop true st) as (P1 & P2 & _).
  exists (S d). rewrite D1, D2, P1, P2. split; [|reflexivity]. destruct (pks st); [destruct d; reflexivity|reflexivity].
Qed.
Lemma pops_ok : forall n (st : mstate), pks (tree_pops n st) = skipn n (pks st) /\ mpos (tree_pops n st) = mpos st.
Proof.
  induction n as [|n IH]; intro st; [split; reflexivity|]. cbn [tree_pops]. destruct (IH (snd (pop true st))) as [I1 I2]. destruct (pks_pop true st) as (P1 & P2 & _).
  rewrite I1, I2, P1, P2. split; [|reflexivity]. destruct (pks st); [destruct n; reflexivity|reflexivity].
Qed.
Lemma skipn_S_tl : forall {X} n (l : list X), tl (skipn n l) = skipn (S n) l.
Proof. induction n as [|n IH]; intros [|x l]; try reflexivity. exact (IH l). Qed.
Lemma skipn_skipn' : forall {X} a b (l : list X), skipn a (skipn b l) = skipn (a + b) l.
Proof.
  intros X a b. revert a. induction b as [|b IH]; intros a l; [rewrite Nat.add_0_r; reflexivity|]. destruct l as [|x l]; [rewrite !skipn_nil; reflexivity|].
  cbn [skipn]. rewrite IH, Nat.add_succ_r. reflexivity.
Qed.
Lemma tree_loop_ok : forall f seen accum (st : mstate), exists d, pks (tree_loop ops intrvl f seen accum st) = skipn d (pks st) /\ mpos (tree_loop ops intrvl f seen accum st) = mpos st.
Proof.
  induction f as [|f IH]; intros seen accum st; [exists 0; split; reflexivity|]. cbn [tree_loop].
  destruct (nth_error (m_stk st) seen) as [[k1 c1]|] eqn:E1; [|exists 0; split; reflexivity]. destruct k1; try (exists 0; split; reflexivity).
  destruct (nth_error (m_stk st) (S seen)) as [[k2 c2]|] eqn:E2; [|exists 0; split; reflexivity]. destruct k2; try (exists 0; split; reflexivity).
  destruct (_ <? _); [apply IH|]. replace (S seen - 1) with seen by lia. set (st1 := tree_pops seen st).
  destruct (pops_ok seen st) as [K1 M1]. fold st1 in K1, M1. destruct (pks_pop false st1) as (K2 & M2 & _). destruct (pop false st1) as [ent st2]. cbn [snd] in K2, M2.
  match goal with |- context [match m_stk ?s with _ => _ end] => set (st3 := s) end.
  assert (K4 : pks st3 = pks st2 /\ mpos st3 = mpos st2).
  { unfold st3. destruct ent as [[[] [|]]|]; try (split; reflexivity). destruct intrvl; match goal with |- context [add ?x ?y] => destruct (pks_add x y) as (X1 & X2 & _); rewrite X1, X2 end; split; reflexivity. }
  clearbody st3. destruct K4 as [K4 M4].
  assert (K5 : pks st3 = skipn (S seen) (pks st)) by (rewrite K4, K2, K1; apply skipn_S_tl).
  assert (M5 : mpos st3 = mpos st) by congruence.
  destruct (m_stk st3) as [|[k3 c3] rest] eqn:E3; [exists (S seen); split; assumption|]. destruct k3; try (exists (S seen); split; assumption).
  assert (NP : pos1 = pos0).
  { assert (X : nth_error (pks st3) 0 = Some (PPos pos1)) by (unfold pks; rewrite E3; reflexivity).
    rewrite K5, nth_skipn, Nat.add_0_r in X. unfold pks in X. rewrite nth_error_map, E2 in X. cbn in X. congruence. }
  subst pos1. match goal with |- context [tree_loop ops intrvl f 0 0 ?s] => destruct (IH 0 0 s) as (d & D1 & D2); assert (K6 : pks s = pks st3) end.
  { unfold pks at 2. rewrite E3. reflexivity. }
  exists (d + S seen). rewrite D1, D2, K6, K5, skipn_skipn'. split; [reflexivity|]. exact M5.
Qed.
Lemma Forall_skipn : forall n l, Forall (pok A) l -> Forall (pok A) (skipn n l).
Proof. induction n as [|n IH]; intros [|x l] H; try exact H. inversion H; subst. apply IH. assumption. Qed.
Lemma PI_drop : forall st st' d a, PI st -> pks st' = skipn d (pks st) -> mpos st' = mpos st -> A a (mpos st) -> PI (set_ip a st').
Proof.
  intros st st' d a (H1 & H2 & _) E1 E2 E3. unfold PI. change (pks (set_ip a st')) with (pks st'). change (mpos (set_ip a st')) with (mpos st'). rewrite E1, E2.
  split; [apply below_skip; exact H1|]. split; [apply Forall_skipn; exact H2|exact E3].
Qed.
Lemma PI_push : forall st k a, PI st -> below (pk_of k :: pks st) (mpos st) -> pok A (pk_of k) -> A a (mpos st) -> PI (set_ip a (push k st)).
Proof. intros st k a (H1 & H2 & _) H3 H4 H5. split; [exact H3|]. split; [constructor; assumption|exact H5]. Qed.

(** the bytes an instruction consumes when it continues behind itself, and whether it keeps the position *)
Definition width (i : insn) : option nat :=
  match i with
  | IChar _ | ISet _ | ITestChar _ _ | ITestSet _ _ | ITestCharNoChoice _ _ | ITestSetNoChoice _ _ => Some 1
  | IAny n | ITestAny n _ => Some (N.to_nat (bN n))
  | ICaptureLate _ _ | ICaptureFull _ _ => Some 0
  | _ => None
  end.
Lemma exec_pos : forall i next st, PI st -> (forall l, target i = Some l -> A l 0) ->
  match width i with Some w => A next (mpos st + w) | None => (forall l, i <> IJump l) -> A next 0 end ->
  res_ok (exec_d bufsz ops check intrvl i next st).
Proof.
  intros i next st HP Ht Hn. pose proof HP as (Hb & Hs & Ha).
  destruct (pks_pop true st) as (KT & MT & IT). destruct (pks_pop false st) as (KF & MF & IF_).
  assert (TGT : forall l, target i = Some l -> A l (mpos st)) by (intros l Hl; apply (A_le _ 0); [lia|auto]).
  assert (TL : forall b, PI (snd (pop b st)) ).
  { intro b. destruct (pks_pop b st) as (K & M & J). unfold PI. rewrite K, M, J. split; [apply below_tl; exact Hb|]. split; [|exact Ha]. destruct (pks st); [constructor|inversion Hs; assumption]. }
  assert (PEEK : forall s0, i_pos s0 = i_pos (m_src st) -> PI (set_src s0 st)).
  { intros s0 E. eapply PI_moved; [exact HP|reflexivity|unfold mpos; cbn; lia|reflexivity]. }
  assert (NX : width i = None -> (forall l, i <> IJump l) -> A next (mpos st)).
  { intros Hw Hj. rewrite Hw in Hn. apply (A_le _ 0); [lia|apply Hn; exact Hj]. }
  assert (ONE : forall c s0 a, i_peek (m_src st) = (Some c, s0) -> width i = Some 1 -> a = next ->
     pks (set_ip a (advance1 bufsz (set_src s0 st))) = pks st /\ mpos st <= mpos (advance1 bufsz (set_src s0 st)) /\ A a (mpos (advance1 bufsz (set_src s0 st)))).
  { intros c s0 a Ep Hw ->. split; [reflexivity|]. assert (E : mpos (advance1 bufsz (set_src s0 st)) = mpos st + 1).
    { unfold advance1, mpos. cbn. replace s0 with (snd (i_peek (m_src st))) by (rewrite Ep; reflexivity). apply adv1_peek with c. rewrite Ep. reflexivity. }
    rewrite E. split; [lia|]. rewrite Hw in Hn. exact Hn. }
  assert (PP : forall o s0, i_peek (m_src st) = (o, s0) -> i_pos s0 = i_pos (m_src st)).
  { intros o s0 E. change s0 with (snd (o, s0)). rewrite <- E. reflexivity. }
  destruct i; cbn [exec_d target width] in *; try exact I.
  - (* char *) unfold peek. destruct (i_peek (m_src st)) as [[c|] s0] eqn:Ep; [destruct (byte_eqb b c)|]; try (apply fail_ok; apply PEEK; eapply PP; reflexivity).
    destruct (ONE c s0 next eq_refl eq_refl eq_refl) as (O1 & O2 & O3). eapply PI_to; [exact HP|exact O1|exact O2|exact O3].
  - (* jump *) eapply PI_to; [exact HP|reflexivity|lia|apply TGT; reflexivity].
  - (* choice *) apply PI_push; [exact HP|cbn; split; [lia|exact Hb]|cbn; apply Ht; reflexivity|apply NX; [reflexivity|discriminate]].
  - (* call *) apply PI_push; [exact HP|exact Hb|cbn; apply Hn; discriminate|apply TGT; reflexivity].
  - (* commit *) eapply PI_to; [apply (TL true)|reflexivity|lia|rewrite MT; apply TGT; reflexivity].
  - (* return *) specialize (TL true). unfold pop in *. destruct (m_stk st) as [|[k c] stk] eqn:E; [exact I|]. destruct k; try exact I. cbn [snd s_capt] in *.
    eapply PI_to; [exact TL|reflexivity|lia|]. apply (A_le _ 0); [lia|]. unfold pks in Hs. rewrite E in Hs. inversion Hs; assumption.
  - (* fail *) apply fail_ok. exact HP.
  - (* set *) unfold peek. destruct (i_peek (m_src st)) as [[c|] s0] eqn:Ep; [destruct (cs_has s c)|]; try (apply fail_ok; apply PEEK; eapply PP; reflexivity).
    destruct (ONE c s0 next eq_refl eq_refl eq_refl) as (O1 & O2 & O3). eapply PI_to; [exact HP|exact O1|exact O2|exact O3].
  - (* any *) pose proof (adv_le (m_src st) (N.to_nat (bN n))) as L. pose proof (adv_ok (m_src st) (N.to_nat (bN n))) as O.
    destruct (i_advance bufsz (m_src st) (N.to_nat (bN n))) as [[] s0]; cbn [fst snd] in *.
    + eapply PI_to; [exact HP|reflexivity|exact L|]. unfold mpos. cbn. rewrite O by reflexivity. exact Hn.
    + apply fail_ok. eapply PI_moved; [exact HP|reflexivity|exact L|reflexivity].
  - (* partial commit *) destruct (m_stk st) as [|[k c] stk] eqn:E; [exact I|]. destruct k; try exact I.
    assert (EP : pks st = PBt ip off :: map (fun e => pk_of (s_kind e)) stk) by (unfold pks; rewrite E; reflexivity).
    rewrite EP in Hb, Hs. cbn [below] in Hb. destruct Hb as [Hb1 Hb2]. inversion Hs as [|? ? Hk Hs2]; subst.
    destruct (add_capt c stk (m_base st)) as [rest base] eqn:Ea.
    assert (ER : map (fun e => pk_of (s_kind e)) rest = map (fun e => pk_of (s_kind e)) stk).
    { unfold add_capt in Ea. destruct stk as [|[k2 c2] stk]; injection Ea as <- <-; reflexivity. }
    unfold res_ok, PI, pks. cbn [m_stk set_ip set_stk map s_kind pk_of]. rewrite ER. cbn [below]. unfold mpos at 1. cbn [m_src set_ip set_stk].
    split; [split; [apply le_n|]; revert Hb2; apply below_le; exact Hb1|]. split; [constructor; [exact Hk|exact Hs2]|]. apply TGT. reflexivity.
  - (* span *) destruct (span_ok (S (List.length (i_data (m_src st)))) s st) as [S1 S2]. eapply PI_to; [exact HP|exact S1|exact S2|]. apply (A_le _ 0); [lia|]. apply Hn. discriminate.
  - (* back commit *) specialize (TL true). unfold pop in *. destruct (m_stk st) as [|[k c] stk] eqn:E; [exact I|]. destruct k; try exact I. cbn [snd s_capt] in *.
    assert (EP : pks st = PBt ip off :: map (fun e => pk_of (s_kind e)) stk) by (unfold pks; rewrite E; reflexivity).
    rewrite EP in Hb. cbn [below] in Hb. destruct Hb as [Hb1 Hb2]. rewrite EP in KT. cbn [tl] in KT.
    match goal with |- res_ok (Next (set_ip l (set_src _ ?y))) => set (y0 := y) in * end. pose proof (seek_pos (m_src y0) off) as EX.
    revert EX. generalize (snd (i_seek bufsz (m_src y0) off)) as x0. intros x0 EX.
    unfold res_ok, PI. change (pks (set_ip l (set_src x0 y0))) with (pks y0). change (mpos (set_ip l (set_src x0 y0))) with (i_pos x0). rewrite KT, EX.
    split; [exact Hb2|]. split; [rewrite EP in Hs; inversion Hs; assumption|]. apply (A_le _ 0); [lia|]. apply Ht. reflexivity.
  - (* fail twice *) apply fail_ok. apply TL.
  - (* empty *) unfold peek. destruct (i_peek (m_src st)) as [b2 s0] eqn:Ep. destruct (_ =? 0)%N; [apply fail_ok; apply PEEK; eapply PP; reflexivity|].
    eapply PI_to; [apply (PEEK s0); eapply PP; reflexivity|reflexivity|lia|]. apply (A_le _ 0); [lia|]. apply Hn. discriminate.
  - (* test char *) unfold peek. destruct (i_peek (m_src st)) as [[c|] s0] eqn:Ep; [destruct (byte_eqb c b)|];
      try (eapply PI_to; [apply (PEEK s0); eapply PP; reflexivity|reflexivity|lia|apply (A_le _ 0); [lia|apply Ht; reflexivity]]).
    destruct (ONE c s0 next eq_refl eq_refl eq_refl) as (O1 & O2 & O3).
    assert (EM : mpos (set_src s0 st) = mpos st) by (unfold mpos; cbn; eapply PP; reflexivity).
    split; [|split; [constructor; [cbn; apply Ht; reflexivity|exact Hs]|exact O3]].
    change (mpos (set_src s0 st) <= mpos (advance1 bufsz (set_src s0 st)) /\ below (pks st) (mpos (set_src s0 st))). rewrite EM. split; assumption.
  - unfold peek. destruct (i_peek (m_src st)) as [[c|] s0] eqn:Ep; [destruct (byte_eqb c b)|];
      try (eapply PI_to; [apply (PEEK s0); eapply PP; reflexivity|reflexivity|lia|apply (A_le _ 0); [lia|apply Ht; reflexivity]]).
    destruct (ONE c s0 next eq_refl eq_refl eq_refl) as (O1 & O2 & O3). eapply PI_to; [exact HP|exact O1|exact O2|exact O3].
  - unfold peek. destruct (i_peek (m_src st)) as [[c|] s0] eqn:Ep; [destruct (cs_has s c)|];
      try (eapply PI_to; [apply (PEEK s0); eapply PP; reflexivity|reflexivity|lia|apply (A_le _ 0); [lia|apply Ht; reflexivity]]).
    destruct (ONE c s0 next eq_refl eq_refl eq_refl) as (O1 & O2 & O3).
    assert (EM : mpos (set_src s0 st) = mpos st) by (unfold mpos; cbn; eapply PP; reflexivity).
    split; [|split; [constructor; [cbn; apply Ht; reflexivity|exact Hs]|exact O3]].
    change (mpos (set_src s0 st) <= mpos (advance1 bufsz (set_src s0 st)) /\ below (pks st) (mpos (set_src s0 st))). rewrite EM. split; assumption.
  - unfold peek. destruct (i_peek (m_src st)) as [[c|] s0] eqn:Ep; [destruct (cs_has s c)|];
      try (eapply PI_to; [apply (PEEK s0); eapply PP; reflexivity|reflexivity|lia|apply (A_le _ 0); [lia|apply Ht; reflexivity]]).
    destruct (ONE c s0 next eq_refl eq_refl eq_refl) as (O1 & O2 & O3). eapply PI_to; [exact HP|exact O1|exact O2|exact O3].
  - (* test any *) pose proof (adv_le (m_src st) (N.to_nat (bN n))) as L. pose proof (adv_ok (m_src st) (N.to_nat (bN n))) as O.
    destruct (i_advance bufsz (m_src st) (N.to_nat (bN n))) as [[] s0]; cbn [fst snd] in *.
    + split; [cbn [map pks m_stk push set_ip set_stk s_kind pk_of below]; split; [exact L|exact Hb]|]. split; [constructor; [cbn; apply Ht; reflexivity|exact Hs]|].
      change (A next (i_pos s0)). rewrite O by reflexivity. exact Hn.
    + eapply PI_to; [exact HP|reflexivity|exact L|]. apply (A_le _ 0); [lia|apply Ht; reflexivity].
  - (* memo open *) destruct (t_get ops (m_tbl st) id (mpos st)) as [[[[len|] cnt cs]|] tb].
    + destruct (pks_add cs (set_tbl tb st)) as (E1 & E2 & _).
      assert (L : mpos st <= mpos (advance bufsz len (add cs (set_tbl tb st)))).
      { unfold advance, mpos at 2. cbn [m_src set_src]. eapply Nat.le_trans; [|apply adv_le]. change (mpos st <= mpos (add cs (set_tbl tb st))). rewrite E2. apply le_n. }
      eapply PI_to; [exact HP|exact E1|exact L|]. apply (A_le _ 0); [lia|apply Ht; reflexivity].
    + apply fail_ok. exact HP.
    + apply (PI_push (set_tbl tb st)); [exact HP|cbn; split; [apply le_n|exact Hb]|exact I|apply (A_le _ 0); [lia|]; apply Hn; discriminate].
  - (* memo close *) specialize (TL true). unfold pop in *. destruct (m_stk st) as [|[k c] stk] eqn:E; [exact I|]. destruct k; try exact I. cbn [snd s_capt] in *.
    eapply PI_to; [exact TL|reflexivity|apply le_n|]. apply (A_le _ 0); [lia|]. apply Hn. discriminate.
  - (* tree open *) destruct (t_get ops (m_tbl st) id (mpos st)) as [[[[len|] cnt cs]|] tb].
    + set (st1 := push (KTree id (mpos st) cnt) (set_tbl tb st)). assert (P1 : PI st1).
      { split; [cbn; split; [apply le_n|exact Hb]|]. split; [constructor; [exact I|exact Hs]|exact Ha]. }
      destruct (pks_add cs st1) as (E1 & E2 & _). eapply PI_to; [exact P1|unfold peek; destruct (i_peek _); exact E1| |apply (A_le _ 0); [lia|apply Ht; reflexivity]].
      assert (L : mpos st1 <= mpos (advance bufsz len (add cs st1))).
      { unfold advance, mpos at 2. cbn [m_src set_src]. eapply Nat.le_trans; [|apply adv_le]. change (mpos st1 <= mpos (add cs st1)). rewrite E2. apply le_n. }
      eapply Nat.le_trans; [exact L|]. unfold peek. destruct (i_peek (m_src (advance bufsz len (add cs st1)))) as [o s0] eqn:Ep. unfold mpos. cbn [snd m_src set_src].
      replace s0 with (snd (i_peek (m_src (advance bufsz len (add cs st1))))) by (rewrite Ep; reflexivity). apply le_n.
    + apply fail_ok. exact HP.
    + apply (PI_push (set_tbl tb st)); [exact HP|cbn; split; [apply le_n|exact Hb]|exact I|apply (A_le _ 0); [lia|]; apply Hn; discriminate].
  - (* insert *) destruct (m_stk st) as [|[k c] stk] eqn:E; [exact I|]. destruct k; try exact I.
    eapply PI_to; [exact HP| |apply le_n|apply (A_le _ 0); [lia|]; apply Hn; discriminate]. unfold pks at 2. rewrite E. reflexivity.
  - (* memo tree *) match goal with |- context [tree_loop ops intrvl ?f 0 0 st] => destruct (tree_loop_ok f 0 0 st) as (d & D1 & D2) end.
    eapply PI_drop; [exact HP|exact D1|exact D2|apply NX; [reflexivity|discriminate]].
  - (* tree close *) match goal with |- context [tree_close ?f id st] => destruct (close_ok f id st) as (d & D1 & D2) end.
    eapply PI_drop; [exact HP|exact D1|exact D2|apply NX; [reflexivity|discriminate]].
  - (* capture begin *) apply PI_push; [exact HP|cbn; split; [lia|exact Hb]|exact I|apply NX; [reflexivity|discriminate]].
  - (* capture late *) apply PI_push; [exact HP|cbn [pk_of below]; split; [lia|exact Hb]|exact I|]. replace (mpos st) with (mpos st + 0) by lia. exact Hn.
  - (* capture end *) specialize (TL false). unfold pop in *. destruct (m_stk st) as [|[k c] stk] eqn:E; [exact I|]. destruct k; try exact I. cbn [snd s_capt] in *.
    match goal with |- context [add_node intrvl id ?a ?b ?c ?s] => destruct (pks_node id a b c s) as [N1 N2] end.
    eapply PI_to; [exact TL|exact N1|rewrite N2; apply le_n|]. apply (A_le _ 0); [lia|]. apply Hn. discriminate.
  - (* capture full *) match goal with |- context [add_node intrvl id ?a ?b ?c ?s] => destruct (pks_node id a b c s) as [N1 N2] end.
    eapply PI_to; [exact HP|exact N1|rewrite N2; apply le_n|]. rewrite N2. replace (mpos st) with (mpos st + 0) by lia. exact Hn.
  - (* check begin *) apply PI_push; [exact HP|cbn; split; [lia|exact Hb]|exact I|apply NX; [reflexivity|discriminate]].
  - (* check end *) specialize (TL true). unfold pop in *. destruct (m_stk st) as [|[k c] stk] eqn:E; [exact I|]. destruct k; try exact I. cbn [snd s_capt] in *.
    match type of TL with PI ?s => set (st1 := s) in * end. destruct (check _ _ _ _ _ _ _) as [cs [n0|]].
    + eapply PI_to; [exact TL|reflexivity|unfold advance, mpos; cbn [m_src set_src set_cs]; apply adv_le|]. apply (A_le _ 0); [lia|]. apply Hn. discriminate.
    + apply fail_ok. exact TL.
  - (* error *) eapply PI_to; [exact HP|reflexivity|apply le_n|apply NX; [reflexivity|discriminate]].
Qed.
Lemma reached_PI : forall step st st', (forall st, PI st -> res_ok (step st)) -> PI st -> reached step st st' -> PI st'.
Proof. intros step st st' Hstep H Hr. induction Hr as [|st1 st2 _ IH Hs]; [exact H|]. specialize (Hstep _ IH). rewrite Hs in Hstep. exact Hstep. Qed.
Lemma PI_starts : forall st, PI st -> forall e pos, In e (m_stk st) -> start_of (s_kind e) = Some pos -> pos <= mpos st.
Proof.
  intros st (H & _) e pos He Hp. unfold pks in H. revert H. generalize (mpos st) as hi. induction (m_stk st) as [|[k c] stk IH]; intros hi H; [destruct He|].
  destruct He as [He|He].
  - subst e. cbn [map s_kind] in *. destruct k; try discriminate; injection Hp as ->; apply H.
  - apply IH; [exact He|]. apply below_tl in H. exact H.
Qed.
End Sim.

(* ---------- the code ---------- *)
(** the bytes known to be consumed in front of an instruction, and that every capture reaches back at most that far *)
Definition after (acc : nat) (i : insn) : nat := match width i with Some w => acc + w | None => match i with INop => acc | _ => 0 end end.
Fixpoint lt (acc : nat) (c : program) : Prop :=
  match c with
  | [] => True
  | i :: c => match back_of i with Some b => b <= acc | None => True end /\ lt (after acc i) c
  end.
Lemma lt_le : forall c a b, a <= b -> lt a c -> lt b c.
Proof.
  induction c as [|i c IH]; intros a b H Hc; [exact I|]. cbn [lt] in *. destruct Hc as [H1 H2]. split; [destruct (back_of i); [lia|exact I]|].
  revert H2. apply IH. unfold after. destruct (width i); [lia|]. destruct i; lia.
Qed.
Lemma lt_0 : forall a c, lt 0 c -> lt a c. Proof. intros a c. apply lt_le. lia. Qed.
Lemma lt_app : forall a b acc, lt acc a -> lt 0 b -> lt acc (a ++ b).
Proof. induction a as [|i a IH]; intros b acc Ha Hb; [apply lt_0; exact Hb|]. cbn [app lt] in *. destruct Ha. split; [assumption|]. apply IH; assumption. Qed.
Lemma lt_cons : forall i c acc, back_of i = None -> lt 0 c -> lt acc (i :: c).
Proof. intros i c acc H Hc. cbn [lt]. rewrite H. split; [exact I|]. apply lt_0. exact Hc. Qed.
Lemma lt_un : forall c a b, a <= b -> lt a (un c) -> lt b c.
Proof.
  induction c as [|i c IH]; intros a b H Hc; [exact I|]. cbn [un map lt] in *. destruct Hc as [H1 H2].
  assert (E : i = INop \/ unnop i = i) by (destruct i; auto). destruct E as [->|E].
  - split; [exact I|]. cbn. revert H2. apply IH. cbn. lia.
  - rewrite E in *. split; [destruct (back_of i); [lia|exact I]|]. revert H2. apply IH. unfold after. destruct (width i); [lia|]. destruct i; lia.
Qed.
Lemma lt_skip : forall c k acc, lt acc c -> exists a, lt a (skipn k c).
Proof. induction c as [|i c IH]; intros [|k] acc H; [exists acc; exact H|exists 0; exact I|exists acc; exact H|]. destruct H as [_ H]. apply (IH k _ H). Qed.
(** a position-wise change that consumes as much and reaches back as little *)
Lemma lt_map : forall c c' acc, List.length c = List.length c' -> lt acc c ->
  (forall t i, nth_error c t = Some i -> exists j, nth_error c' t = Some j /\ back_of j = back_of i /\ forall a, after a j = after a i) -> lt acc c'.
Proof.
  induction c as [|i c IH]; intros [|j c'] acc Hl H Hm; try discriminate; [exact I|]. destruct (Hm 0 i eq_refl) as (j' & E & B1 & B2). injection E as <-.
  cbn [lt] in *. rewrite B1, B2. destruct H as [H1 H2]. split; [exact H1|]. apply IH; [injection Hl; auto|exact H2|]. intros t. exact (Hm (S t)).
Qed.
Lemma lt_resolved : forall lbls c c', resolved lbls c c' -> lt 0 c -> lt 0 c'.
Proof.
  intros lbls c c' [Hl Hr] H. apply lt_map with c; [exact Hl|exact H|]. intros t i Hi. specialize (Hr t). rewrite Hi in Hr.
  destruct i; try (eexists; split; [exact Hr|]; split; reflexivity).
  destruct Hr as (l & _ & [Hr|[Hr _]]); (eexists; split; [exact Hr|]; split; reflexivity).
Qed.

(** the instructions in front of a capture *)
Lemma cap_prefix_lt : forall c i back, cap_prefix c = (i, back) -> forall acc d, lt acc (firstn i c ++ d) <-> lt (acc + N.to_nat back) d.
Proof.
  induction c as [|x c IH]; intros i back H acc d; [injection H as <- <-; cbn; rewrite Nat.add_0_r; tauto|].
  destruct x; try (injection H as <- <-; cbn; rewrite Nat.add_0_r; tauto); cbn [cap_prefix] in H; destruct (cap_prefix c) as [i0 b0]; injection H as <- <-;
    specialize (IH _ _ eq_refl); cbn [firstn app lt back_of after width]; rewrite IH;
    match goal with |- _ /\ lt ?x _ <-> lt ?y _ => replace x with y by lia end; tauto.
Qed.
Lemma lt_cap : forall sub id, lt 0 (un sub) -> lt 0 (un (cap_code sub id)).
Proof.
  intros sub id H. unfold cap_code. destruct (cap_prefix sub) as [i back] eqn:Ec. destruct (cap_prefix_ch _ _ _ Ec) as (P1 & P2 & P3).
  destruct ((i =? 0) || (256 <=? back)%N) eqn:Ei.
  - rewrite un_cons, un_app. apply lt_cons; [reflexivity|]. apply lt_app; [exact H|]. cbn. auto.
  - apply orb_false_iff in Ei. destruct Ei as [_ Ei]. apply N.leb_gt in Ei. pose proof (cap_prefix_lt _ _ _ Ec) as L.
    destruct (Nat.eqb_spec i (List.length sub)) as [->|Hi].
    + rewrite firstn_all in *. rewrite un_app, P2. apply L. cbn [un map unnop lt back_of]. rewrite bN_N2b by exact Ei. split; [lia|exact I].
    + rewrite !un_app, P2. apply L. rewrite <- (firstn_skipn i sub), un_app, P2 in H. apply L in H.
      cbn [un map unnop app lt back_of]. rewrite bN_N2b by exact Ei. split; [lia|]. cbn [after width]. rewrite Nat.add_0_r. apply lt_app; [exact H|]. cbn. auto.
Qed.
Lemma lt_alt : forall cl cr L1 L2, nopj cl -> hdok cl -> lt 0 (un cl) -> lt 0 (un cr) -> lt 0 (un (alt_code cl cr L1 L2)).
Proof.
  intros cl cr L1 L2 N1 D1 C1 C2. unfold alt_code. destruct (alt_test cl cr L1) as [t|] eqn:Et.
  - assert (Hd : exists h, next_insn cl = Some h /\ is_test_head h = true /\ unnop h = h /\ unnop t = t /\ back_of t = None /\ after 0 t = after 0 h).
    { unfold alt_test in Et. destruct (next_insn cl) as [h|]; [|discriminate]. exists h. split; [reflexivity|].
      destruct h; try discriminate; destruct (next_insn cr) as [[]|]; try discriminate;
        repeat match type of Et with (if ?b then _ else _) = _ => destruct b; try discriminate end; injection Et as <-; repeat split. }
    destruct Hd as (h & X1 & X2 & X5 & X6 & X7 & X8). destruct (next_head _ _ N1 D1 X1 X2) as (cl' & ->). cbn [tl]. rewrite un_cons, X5 in C1. destruct C1 as [_ C1]. rewrite <- X8 in C1.
    repeat rewrite ?un_app, ?un_cons, ?un_nil. rewrite X6. cbn [unnop app lt]. rewrite X7. split; [exact I|].
    apply lt_app; [exact C1|]. apply lt_cons; [reflexivity|]. apply lt_cons; [reflexivity|]. apply lt_app; [exact C2|]. cbn. auto.
  - repeat rewrite ?un_app, ?un_cons, ?un_nil. cbn [unnop app]. apply lt_cons; [reflexivity|]. apply lt_app; [exact C1|]. apply lt_cons; [reflexivity|]. apply lt_cons; [reflexivity|]. apply lt_app; [exact C2|]. cbn. auto.
Qed.
Section Emit.
Variable thr : nat.
Notation compile_f := (compile_f thr).
Lemma gloop_lt : forall fuel start used,
  (forall p st c st', compile_f fuel p st = COk c st' -> lt 0 (un c)) ->
  forall ds st code lbls code' st' lbls', gloop thr fuel start used ds st code lbls = (COk code' st', lbls') -> lt 0 (un code) -> lt 0 (un code').
Proof.
  intros fuel start used IH. induction ds as [|[k v] ds IHd]; intros st code lbls code' st' lbls' H Hc; [injection H as <- <- <-; exact Hc|].
  cbn [gloop] in H. destruct (negb (String.eqb k start) && negb (str_mem k used)); [eapply IHd; eassumption|].
  unfold new_label in H. destruct (compile_f fuel v (CState (S (cs_uniq st)) (cs_memo st))) as [fn st1| | |] eqn:Ec; try discriminate.
  apply IH in Ec. eapply IHd; [exact H|]. rewrite !un_app. apply lt_app; [exact Hc|]. cbn [un map unnop app]. apply lt_cons; [reflexivity|]. apply lt_app; [exact Ec|]. cbn. auto.
Qed.
Theorem emit_lt : forall fuel p st c st', compile_f fuel p st = COk c st' -> lt 0 (un c).
Proof.
  induction fuel as [|fuel IH]; intros p st c st' H; [discriminate|].
  assert (K : forall i c, back_of (unnop i) = None -> lt 0 (un c) -> lt 0 (un (i :: c))) by (intros; rewrite un_cons; apply lt_cons; assumption).
  assert (AP : forall a b, lt 0 (un a) -> lt 0 (un b) -> lt 0 (un (a ++ b))) by (intros; rewrite un_app; apply lt_app; assumption).
  assert (N0 : lt 0 (un [])) by exact I.
  destruct p.
  - cbn [Model_Pattern.compile_f] in H. destruct (combine (get p1) (get p2)) as [set|] eqn:Ec.
    + injection H as <- <-. apply K; auto.
    + apply cbind_ok in H. destruct H as (cl & st1 & H1 & H). apply cbind_ok in H. destruct H as (cr & st2 & H2 & H).
      unfold new_label in H. cbn [cs_uniq cs_memo] in H. injection H as <- <-. destruct (emit_any _ _ _ _ _ _ H1) as (_ & _ & _ & D1 & N1).
      apply lt_alt; [exact N1|exact D1|eapply IH; exact H1|eapply IH; exact H2].
  - cbn [Model_Pattern.compile_f] in H. apply cbind_ok in H. destruct H as (cl & st1 & H1 & H). apply cbind_ok in H. destruct H as (cr & st2 & H2 & H). injection H as <- <-.
    apply AP; eapply IH; eassumption.
  - cbn [Model_Pattern.compile_f] in H.
    assert (DEF : cbind (compile_f fuel (get p) st) (fun sub st => COk ([IChoice (S (S (cs_uniq st))); ILabel (S (cs_uniq st))] ++ sub ++ [IPartialCommit (S (cs_uniq st)); ILabel (S (S (cs_uniq st)))])
                     (CState (S (S (cs_uniq st))) (cs_memo st))) = COk c st' -> lt 0 (un c)).
    { intros HH. apply cbind_ok in HH. destruct HH as (sub & st1 & H1 & HH). injection HH as <- <-. apply IH in H1.
      cbn [app]. apply K; [reflexivity|]. apply K; [reflexivity|]. apply AP; [exact H1|]. apply K; [reflexivity|]. apply K; auto. }
    destruct (get p) eqn:Eg; try (apply DEF; exact H).
    + apply cbind_ok in H. destruct H as (sub & st1 & H1 & H). unfold new_label in H. cbn [cs_uniq cs_memo] in H. injection H as <- <-. apply IH in H1.
      cbn [app]. repeat (first [exact N0 | apply AP; [exact H1|] | apply K; [reflexivity|]]).
    + injection H as <- <-. apply K; auto.
  - cbn [Model_Pattern.compile_f] in H. apply cbind_ok in H. destruct H as (star & st1 & H1 & H). apply cbind_ok in H. destruct H as (sub & st2 & H2 & H). injection H as <- <-.
    apply AP; eapply IH; eassumption.
  - cbn [Model_Pattern.compile_f] in H.
    destruct (get p) eqn:Eg; try (apply IH in H; exact H).
    + injection H as <- <-. apply K; [reflexivity|]. apply K; auto.
    + destruct str as [|b [|b2 str]]; try (apply IH in H; exact H). injection H as <- <-. apply K; [reflexivity|]. apply K; auto.
  - cbn [Model_Pattern.compile_f] in H. apply cbind_ok in H. destruct H as (sub & st1 & H1 & H). injection H as <- <-. apply IH in H1.
    cbn [app]. repeat (first [exact N0 | apply AP; [exact H1|] | apply K; [reflexivity|]]).
  - cbn [Model_Pattern.compile_f] in H. apply cbind_ok in H. destruct H as (sub & st1 & H1 & H). injection H as <- <-. apply IH in H1.
    cbn [app]. repeat (first [exact N0 | apply AP; [exact H1|] | apply K; [reflexivity|]]).
  - cbn [Model_Pattern.compile_f] in H. apply cbind_ok in H. destruct H as (sub & st1 & H1 & H). injection H as <- <-. apply lt_cap. eapply IH. exact H1.
  - cbn [Model_Pattern.compile_f] in H. unfold new_label in H. apply cbind_ok in H. destruct H as (sub & st1 & H1 & H). injection H as <- <-. apply IH in H1.
    cbn [app]. repeat (first [exact N0 | apply AP; [exact H1|] | apply K; [reflexivity|]]).
  - cbn [Model_Pattern.compile_f] in H. unfold new_label in H. apply cbind_ok in H. destruct H as (sub & st1 & H1 & H). injection H as <- <-. apply IH in H1.
    cbn [app]. repeat (first [exact N0 | apply AP; [exact H1|] | apply K; [reflexivity|]]).
  - rewrite compile_grammar in H. cbv zeta in H. set (D := inline_all thr defs) in *.
    destruct (used_names D) as [|u0 us] eqn:Eu.
    + destruct (assoc D start) as [b|] eqn:Ea; [|discriminate]. apply IH in H. exact H.
    + rewrite <- Eu in *. clear Eu.
      destruct (gloop thr fuel start (used_names D) D (CState (S (cs_uniq st)) (cs_memo st)) [IOpenCall start; IJump (S (cs_uniq st))] []) as [[code st1| | |] lbls] eqn:El; try discriminate.
      destruct (resolve lbls code) as [x|code'] eqn:Er; [discriminate|]. injection H as <- <-.
      destruct (gloop_emits _ _ _ _ (emit_any thr fuel) _ _ _ _ _ _ _ El) as (bs & I1 & _ & _ & _ & _ & N1).
      assert (Hn : nopj code) by (rewrite I1; apply nopj_app; [apply nopj_cons; [discriminate|]; apply nopj_cons; [discriminate|]; apply nopj_nil|exact N1]).
      destruct (resolve_ok _ _ _ Er Hn) as [_ Hr]. apply AP; [|apply K; auto]. apply (lt_resolved _ _ _ Hr).
      eapply gloop_lt; [exact IH|exact El|]. apply K; [reflexivity|]. apply K; auto.
  - cbn [Model_Pattern.compile_f] in H. apply cbind_ok in H. destruct H as (sub & st1 & H1 & H). apply IH in H. exact H.
  - injection H as <- <-. apply K; auto.
  - injection H as <- <-. induction str as [|b str IHs]; [exact N0|]. cbn [map]. apply K; [reflexivity|exact IHs].
  - destruct inl as [q|]; [cbn [Model_Pattern.compile_f] in H; apply IH in H; exact H|]. injection H as <- <-. apply K; auto.
  - injection H as <- <-. apply K; auto.
  - destruct recover as [q|].
    + cbn [Model_Pattern.compile_f] in H. apply cbind_ok in H. destruct H as (sub & st1 & H1 & H). injection H as <- <-. apply IH in H1. apply K; [reflexivity|exact H1].
    + injection H as <- <-. apply K; [reflexivity|]. apply K; auto.
  - injection H as <- <-. apply K; auto.
  - injection H as <- <-. exact N0.
Qed.
End Emit.

(** Optimize *)
Lemma lt_split : forall p i acc, lt acc p -> exists b, lt b (skipn i p) /\ forall q, lt b q -> lt acc (firstn i p ++ q).
Proof.
  induction p as [|x p IH]; intros [|i] acc H; try (exists acc; split; [exact H|intros q Hq; exact Hq]).
  cbn [lt] in H. destruct H as [H1 H2]. destruct (IH i _ H2) as (b & B1 & B2). exists b. split; [exact B1|]. intros q Hq. cbn [firstn app lt]. split; [exact H1|apply B2; exact Hq].
Qed.
Lemma upd_split : forall {X} (p : list X) i x y, nth_error p i = Some y -> upd i x p = firstn i p ++ x :: skipn (S i) p.
Proof. induction p as [|z p IH]; intros [|i] x y H; try discriminate; [reflexivity|]. cbn [upd firstn app]. f_equal. exact (IH i x y H). Qed.
Lemma skipn_nth : forall {X} (p : list X) i y, nth_error p i = Some y -> skipn i p = y :: skipn (S i) p.
Proof. induction p as [|z p IH]; intros [|i] y H; try discriminate; [injection H as ->; reflexivity|]. exact (IH i y H). Qed.
Lemma opt_lt : forall lbl p i, lt 0 p -> lt 0 (opt_step lbl p i).
Proof.
  intros lbl p i H. unfold opt_step.
  assert (J : forall l j, nth_error p i = Some (IJump l) -> back_of j = None -> lt 0 (upd i j p)).
  { intros l j Hi Hj. rewrite (upd_split _ _ _ _ Hi). destruct (lt_split p i 0 H) as (b & B1 & B2). apply B2. rewrite (skipn_nth _ _ _ Hi) in B1. destruct B1 as [_ B1]. apply lt_cons; [exact Hj|exact B1]. }
  assert (C : forall l h t, nth_error p i = Some (IChoice l) -> nth_error p (S i) = Some h -> back_of t = None -> after 0 t = after 0 h -> lt 0 (upd (S i) INop (upd i t p))).
  { intros l h t Hi Hh Ht Ha. rewrite (upd_split _ (S i) INop h) by (rewrite updo by lia; exact Hh). destruct (lt_split p i 0 H) as (b & B1 & B2).
    assert (L : List.length (firstn i p) = i) by (rewrite firstn_length; apply nth_lt in Hi; lia).
    rewrite (upd_split _ _ _ _ Hi).
    replace (firstn (S i) (firstn i p ++ t :: skipn (S i) p)) with (firstn i p ++ [t]) by (rewrite firstn_app, L, (firstn_all2 (n := S i) (firstn i p)) by lia; replace (S i - i) with 1 by lia; reflexivity).
    replace (skipn (S (S i)) (firstn i p ++ t :: skipn (S i) p)) with (skipn (S (S i)) p).
    2: { rewrite skipn_app, L, (skipn_all2 (n := S (S i)) (firstn i p)) by lia. replace (S (S i) - i) with 2 by lia. cbn [app]. rewrite (skipn_nth _ _ _ Hh). reflexivity. }
    rewrite <- app_assoc. apply B2. rewrite (skipn_nth _ _ _ Hi), (skipn_nth _ _ _ Hh) in B1. destruct B1 as [_ [_ B1]]. cbn [app lt]. rewrite Ht. split; [exact I|]. split; [exact I|].
    change (after (after b t) INop) with (after b t). cbn [after width] in B1. revert B1. apply lt_le. change (after 0 h <= after b t). rewrite <- Ha. unfold after. destruct (width t); [lia|]. destruct t; lia. }
  destruct (nth_error p i) as [[]|] eqn:Ei; try exact H.
  - destruct (next_insn (skipn (lbl l) p)) as [j|]; [|exact H]. destruct j; try exact H; eapply J; reflexivity.
  - destruct (nth_error p (S i)) as [[]|] eqn:Es; try exact H; (eapply C; [reflexivity|reflexivity|reflexivity|reflexivity]).
Qed.
Lemma optimize_lt : forall p, lt 0 p -> lt 0 (optimize p).
Proof.
  intros p H. unfold optimize. generalize (lbl_index p) as lbl. intro lbl. generalize (seq 0 (List.length p)) as l. intro l. revert p H.
  induction l as [|i l IH]; intros p H; [exact H|]. cbn [fold_left]. apply IH. apply opt_lt. exact H.
Qed.
Lemma compiled_lt : forall thr p code, compiled thr p code -> exists c, encode c = Some code /\ lt 0 c.
Proof.
  intros thr p code (fuel & st0 & c & st1 & Hc & He). exists c. split; [exact He|]. unfold compile in Hc.
  destruct (Model_Pattern.compile_f thr fuel p st0) as [c0 st2| | |] eqn:Ec; try discriminate. injection Hc as <- <-.
  apply optimize_lt. apply lt_un with 0; [lia|]. eapply emit_lt. exact Ec.
Qed.

(** the addresses a program may be at *)
Definition at_ (c : program) (a x : nat) : Prop := exists k acc, k <= List.length c /\ a = offs c k /\ acc <= x /\ lt acc (skipn k c).
Lemma at_le : forall c a x y, x <= y -> at_ c a x -> at_ c a y.
Proof. intros c a x y H (k & acc & H1 & H2 & H3 & H4). exists k, acc. repeat split; try assumption. lia. Qed.
Lemma at_label : forall c l, lt 0 c -> at_ c (lbl_offset c l) 0.
Proof.
  intros c l H. rewrite lbl_offset_index. exists (lbl_index c l), 0. split; [apply lbl_index_le|]. split; [reflexivity|]. split; [lia|].
  destruct (lbl_index_pos c l) as [E|E]; [|rewrite E; exact H]. destruct (lt_skip c (lbl_index c l) 0 H) as (a & Ha). rewrite (skipn_nth _ _ _ E) in *. destruct Ha as [_ Ha]. split; [exact I|exact Ha].
Qed.
Lemma at_walk : forall c n k acc, n = List.length c - k -> k <= List.length c -> lt acc (skipn k c) ->
  exists v, v <= List.length c /\ offs c v = offs c k /\ ((v = List.length c) \/ exists i a, nth_error c v = Some i /\ is_label_or_nop i = false /\ a <= acc /\ lt a (skipn v c)).
Proof.
  intros c. induction n as [|n IH]; intros k acc Hn Hk H; [exists k; repeat split; try assumption; left; lia|].
  destruct (nth_error c k) as [i|] eqn:Ei; [|apply nth_error_None in Ei; lia]. destruct (is_label_or_nop i) eqn:El.
  - rewrite (skipn_nth _ _ _ Ei) in H. destruct H as [_ H]. destruct (IH (S k) _ ltac:(lia) ltac:(apply nth_lt in Ei; lia) H) as (v & V1 & V2 & V3).
    exists v. split; [exact V1|]. split; [rewrite V2, (offs_S _ _ _ Ei); destruct i; try discriminate; cbn; lia|].
    destruct V3 as [V3|(j & a & W1 & W2 & W3 & W4)]; [left; exact V3|]. right. exists j, a. repeat split; try assumption. destruct i; try discriminate; cbn in W3; lia.
  - exists k. split; [exact Hk|]. split; [reflexivity|]. right. exists i, acc. repeat split; auto.
Qed.
Theorem back_ok : forall bufsz T (ops : table_ops T) CS check intrvl thr p code s t (cs : CS) st,
  compiled thr p code -> reached (vm_step bufsz ops check intrvl code) (init_state bufsz ops intrvl s t cs) st ->
  forall i b, decode code (m_ip st) = Some i -> back_of i = Some b -> b <= mpos st.
Proof.
  intros bufsz T ops CS check intrvl thr p code s t cs st Hc H.
  destruct (compiled_lt _ _ _ Hc) as (c & He & Hl).
  assert (NEXT : forall a x, at_ c a x -> exists i, decode code a = Some i /\ ((exists f, i = IEnd f) \/
     (match back_of i with Some b => b <= x | None => True end /\ (forall l, target i = Some l -> at_ c l 0) /\
      match width i with Some w => at_ c (a + sz i) (x + w) | None => at_ c (a + sz i) 0 end))).
  { intros a x (k & acc & K1 & -> & K3 & K4). destruct (at_walk c _ k acc eq_refl K1 K4) as (v & V1 & V2 & [V3|(i & a & W1 & W2 & W3 & W4)]).
    - exists (IEnd false). split; [rewrite <- V2, V3; apply encode_end; exact He|]. left. eauto.
    - destruct (encode_fetch _ _ He _ _ W1 W2) as [D1 D2]. exists (map_lbl (lbl_offset c) i). split; [rewrite <- V2; exact D1|]. right.
      rewrite (skipn_nth _ _ _ W1) in W4. destruct W4 as [W4 W5]. rewrite <- V2, D2, <- (offs_S _ _ _ W1).
      assert (X : forall z, after a i <= z -> at_ c (offs c (S v)) z) by (intros z Hz; exists (S v), (after a i); repeat split; try assumption; apply nth_lt in W1; lia).
      split; [destruct i; try exact I; cbn [map_lbl back_of] in *; lia|].
      split; [intros l Hl'; destruct i; cbn [map_lbl target] in Hl'; try discriminate; injection Hl' as <-; apply at_label; exact Hl|].
      destruct i; cbn [map_lbl width]; try discriminate; apply X; cbn [after width]; lia. }
  assert (P : PI T CS (at_ c) st).
  { eapply (reached_PI T CS (at_ c)); [| |exact H].
    - intros st0 H0. unfold vm_step. destruct (NEXT _ _ (proj2 (proj2 H0))) as (i & -> & [(f & ->)|(_ & N1 & N2)]); [exact I|].
      apply exec_pos; [apply at_le|exact H0|exact N1|]. destruct (width i); auto.
    - split; [exact I|]. split; [constructor|]. exists 0, 0. cbn. rewrite offs_0. repeat split; try lia. exact Hl. }
  intros i b Hi Hb. destruct (NEXT _ _ (proj2 (proj2 P))) as (j & Hj & N). rewrite Hi in Hj. injection Hj as <-. destruct N as [(f & ->)|(N & _)]; [discriminate|]. rewrite Hb in N. exact N.
Qed.

(** for any code at all *)
Theorem starts_ok : forall bufsz T (ops : table_ops T) CS check intrvl c s t (cs : CS) st,
  reached (vm_step bufsz ops check intrvl c) (init_state bufsz ops intrvl s t cs) st ->
  forall e pos, In e (m_stk st) -> start_of (s_kind e) = Some pos -> pos <= mpos st.
Proof.
  intros bufsz T ops CS check intrvl c s t cs st H. apply (PI_starts T CS (fun _ _ => True)).
  eapply (reached_PI T CS (fun _ _ => True)); [| |exact H].
  - intros st0 H0. unfold vm_step. destruct (decode c (m_ip st0)) as [i|]; [|exact I]. apply exec_pos; auto. destruct (width i); auto.
  - split; [exact I|]. split; [constructor|exact I].
Qed.
Lemma steps_reached : forall T CS (step : mstate T CS -> step_res T CS) n st, reached step st (after_steps step n st).
Proof.
  induction n as [|n IH]; intro st; [apply rc_refl|]. cbn [after_steps]. destruct (step (after_steps step n st)) eqn:E; [|apply IH|apply IH].
  eapply rc_step; [apply IH|exact E].
Qed.
