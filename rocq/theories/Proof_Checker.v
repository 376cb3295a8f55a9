(** The library's checkers. *)
From Verif Require Import Base Model_Charset Model_Isa Model_Capture Model_Code Model_VM Model_Pattern Model_Checker Spec_Peg Spec_Run Spec_Props Proof_Eval Proof_Inline.
Local Open Scope nat_scope.

Lemma bytes_eqb_eq : forall a b, bytes_eqb a b = true <-> a = b.
Proof. intros a b. unfold bytes_eqb. destruct (list_eq_dec Byte.byte_eq_dec a b); split; congruence. Qed.
Lemma map_check_spec : forall strs b, map_check strs b = if existsb (bytes_eqb b) strs then Some 0 else None. Proof. reflexivity. Qed.
Lemma map_mem : forall strs b, existsb (bytes_eqb b) strs = true <-> In b strs.
Proof. intros. rewrite existsb_exists. split; [intros (x & H1 & H2); apply bytes_eqb_eq in H2; congruence|]. intro H. exists b. split; [exact H|]. apply bytes_eqb_eq. reflexivity. Qed.
Lemma std_check_ok : forall cks s, check_ok (std_check cks) s.
Proof.
  intros cks s k cs bs j id fl cs' n H Hj. unfold std_check in H. destruct (cks k) as [strs|].
  - unfold map_check in H. destruct (existsb _ strs); [|discriminate]. injection H as <- <-. lia.
  - unfold ref_check in H. destruct (fl mod 256)%Z as [|[| |]|]; try (injection H as <- <-; lia).
    cbv zeta in H. destruct (_ && _) eqn:E; [|discriminate]. injection H as <- <-. apply andb_prop in E. destruct E as [E _]. apply Nat.eqb_eq in E.
    rewrite firstn_length, skipn_length in *. lia.
Qed.

Section Check.
Variable cks : nat -> checker.
Variable s : list byte.
Notation peg := (peg s (std_check cks)).
Notation world := (world symbols).

Lemma inv_check : forall E p k id fl i (w : world) r w', peg E (PCheck p k id fl) i w r w' ->
  (exists j ts errs cs cs' n, peg E p i w (RSucc j ts) (errs, cs) /\ std_check cks k cs (firstn (j - i) (skipn i s)) s j id fl = (cs', Some n) /\ r = RSucc (j + n) ts /\ w' = (errs, cs')) \/
  (exists j ts errs cs cs', peg E p i w (RSucc j ts) (errs, cs) /\ std_check cks k cs (firstn (j - i) (skipn i s)) s j id fl = (cs', None) /\ r = RFail /\ w' = (errs, cs')) \/
  (peg E p i w r w' /\ forall j ts, r <> RSucc j ts).
Proof.
  intros. inversion H; subst.
  - left. do 6 eexists. split; [eassumption|]. split; [eassumption|]. auto.
  - right. left. do 5 eexists. split; [eassumption|]. split; [eassumption|]. auto.
  - right. right. auto.
Qed.
Lemma map_spec : forall E p k id fl strs i (w : world), cks k = MapChecker strs ->
  (forall j ts w', peg E (PCheck p k id fl) i w (RSucc j ts) w' <->
     peg E p i w (RSucc j ts) w' /\ In (firstn (j - i) (skipn i s)) strs) /\
  (forall w', peg E (PCheck p k id fl) i w RFail w' <->
     peg E p i w RFail w' \/ exists j ts, peg E p i w (RSucc j ts) w' /\ ~ In (firstn (j - i) (skipn i s)) strs).
Proof.
  intros E p k id fl strs i w Hk. split.
  - intros j ts w'. split.
    + intro H. apply inv_check in H. destruct H as [(j' & ts' & errs & cs & cs' & n & H1 & H2 & H3 & ->)|[(j' & ts' & errs & cs & cs' & H1 & H2 & H3 & ->)|[H1 H2]]]; [|discriminate|destruct (H2 _ _ eq_refl)].
      unfold std_check in H2. rewrite Hk in H2. unfold map_check in H2. destruct (existsb _ strs) eqn:Ee; [|discriminate]. injection H2 as <- <-.
      rewrite Nat.add_0_r in H3. injection H3 as <- <-. split; [exact H1|]. apply map_mem. exact Ee.
    + intros [H1 H2]. apply map_mem in H2. destruct w' as [errs cs]. rewrite <- (Nat.add_0_r j). eapply peg_check_ok; [exact H1|]. unfold std_check, map_check. rewrite Hk, H2. reflexivity.
  - intros w'. split.
    + intro H. apply inv_check in H. destruct H as [(j' & ts' & errs & cs & cs' & n & H1 & H2 & H3 & ->)|[(j' & ts' & errs & cs & cs' & H1 & H2 & H3 & ->)|[H1 H2]]]; [discriminate| |left; exact H1].
      unfold std_check in H2. rewrite Hk in H2. unfold map_check in H2. destruct (existsb _ strs) eqn:Ee; [discriminate|]. injection H2 as <-.
      right. exists j', ts'. split; [exact H1|]. intro Hin. apply map_mem in Hin. congruence.
    + intros [H|(j & ts & H1 & H2)]; [apply peg_check_no; [exact H|discriminate]|]. destruct w' as [errs cs]. eapply peg_check_reject; [exact H1|].
      unfold std_check, map_check. rewrite Hk. destruct (existsb _ strs) eqn:Ee; [apply map_mem in Ee; contradiction|reflexivity].
Qed.
Lemma def_spec : forall E p k id i (w : world) j ts errs cs', cks k = BackReference ->
  (peg E (PCheck p k id 0) i w (RSucc j ts) (errs, cs') <->
   exists cs, peg E p i w (RSucc j ts) (errs, cs) /\ cs' = set_symbol cs k id (firstn (j - i) (skipn i s))).
Proof.
  intros E p k id i w j ts errs cs' Hk. split.
  - intro H. apply inv_check in H. destruct H as [(j' & ts' & errs' & cs & cs2 & n & H1 & H2 & H3 & H4)|[(j' & ts' & errs' & cs & cs2 & H1 & H2 & H3 & _)|[H1 H2]]]; [|discriminate|destruct (H2 _ _ eq_refl)].
    unfold std_check in H2. rewrite Hk in H2. injection H2 as <- <-. rewrite Nat.add_0_r in H3. injection H3 as <- <-. injection H4 as <- ->. exists cs. split; [exact H1|reflexivity].
  - intros (cs & H1 & ->). rewrite <- (Nat.add_0_r j). eapply peg_check_ok; [exact H1|]. unfold std_check. rewrite Hk. rewrite Nat.add_0_r. reflexivity.
Qed.
Lemma use_ok : forall back pos, (List.length (firstn (List.length back) (skipn pos s)) =? List.length back) && bytes_eqb (firstn (List.length back) (skipn pos s)) back = true <->
  firstn (List.length back) (skipn pos s) = back.
Proof.
  intros back pos. rewrite andb_true_iff, bytes_eqb_eq, Nat.eqb_eq. split; [tauto|]. intro H. split; [rewrite H at 1; reflexivity|exact H].
Qed.
Lemma use_spec : forall E p k id i (w : world), cks k = BackReference ->
  (forall j' ts errs cs, peg E (PCheck p k id 1) i w (RSucc j' ts) (errs, cs) <->
   exists j, peg E p i w (RSucc j ts) (errs, cs) /\ firstn (List.length (cs k id)) (skipn j s) = cs k id /\ j' = j + List.length (cs k id)) /\
  (forall errs cs, peg E (PCheck p k id 1) i w RFail (errs, cs) <->
   peg E p i w RFail (errs, cs) \/ exists j ts, peg E p i w (RSucc j ts) (errs, cs) /\ firstn (List.length (cs k id)) (skipn j s) <> cs k id).
Proof.
  intros E p k id i w Hk.
  assert (C : forall cs b j, std_check cks k cs b s j id 1 = (cs, if (List.length (firstn (List.length (cs k id)) (skipn j s)) =? List.length (cs k id)) && bytes_eqb (firstn (List.length (cs k id)) (skipn j s)) (cs k id) then Some (List.length (firstn (List.length (cs k id)) (skipn j s))) else None)).
  { intros. unfold std_check. rewrite Hk. reflexivity. }
  split.
  - intros j' ts errs cs. split.
    + intro H. apply inv_check in H. destruct H as [(j & ts' & errs' & cs1 & cs2 & n & H1 & H2 & H3 & H4)|[(j & ts' & errs' & cs1 & cs2 & H1 & H2 & H3 & _)|[H1 H2]]]; [|discriminate|destruct (H2 _ _ eq_refl)].
      rewrite C in H2. destruct (_ && _) eqn:Eu; [|discriminate]. apply use_ok in Eu. injection H2 as <- <-. injection H4 as <- <-. injection H3 as -> <-. exists j. split; [exact H1|]. split; [exact Eu|]. rewrite Eu. reflexivity.
    + intros (j & H1 & H2 & ->). replace (j + List.length (cs k id)) with (j + List.length (firstn (List.length (cs k id)) (skipn j s))) by (rewrite H2; reflexivity).
      eapply peg_check_ok; [exact H1|]. rewrite C. apply use_ok in H2. rewrite H2. reflexivity.
  - intros errs cs. split.
    + intro H. apply inv_check in H. destruct H as [(j & ts' & errs' & cs1 & cs2 & n & H1 & H2 & H3 & H4)|[(j & ts' & errs' & cs1 & cs2 & H1 & H2 & H3 & H4)|[H1 H2]]]; [discriminate| |left; exact H1].
      rewrite C in H2. destruct (_ && _) eqn:Eu; [discriminate|]. injection H2 as <-. injection H4 as <- <-. right. exists j, ts'. split; [exact H1|]. intro Hn. apply use_ok in Hn. congruence.
    + intros [H|(j & ts & H1 & H2)]; [apply peg_check_no; [exact H|discriminate]|]. eapply peg_check_reject; [exact H1|]. rewrite C. destruct (_ && _) eqn:Eu; [apply use_ok in Eu; contradiction|reflexivity].
Qed.
End Check.

Lemma no_def_gram : forall k id defs st, no_def k id (PGrammar defs st) <-> Forall (fun kq => no_def k id (snd kq)) defs.
Proof. intros k id defs st. cbn [no_def]. induction defs as [|[x q] defs IH]; [split; constructor|]. rewrite IH. split; [intros [A B]; constructor; assumption|intro H; inversion H; subst; auto]. Qed.
Definition env_no_def k id (E : env) : Prop := Forall (fun F => Forall (fun kq : string * pattern => no_def k id (snd kq)) F) E.
Lemma lookup_no_def : forall k id E x b E', env_no_def k id E -> lookup E x = Some (b, E') -> no_def k id b /\ env_no_def k id E'.
Proof.
  intros k id E x b E' H. induction H as [|F E HF HE IH]; intro L; [discriminate|]. cbn [lookup] in L. destruct (assoc F x) as [b'|] eqn:Eb; [|apply IH; exact L].
  injection L as <- <-. split; [|constructor; assumption]. apply assoc_in in Eb. rewrite Forall_forall in HF. apply (HF _ Eb).
Qed.
Lemma std_check_frame : forall cks k id k' id' fl cs b s j cs' n, std_check cks k' cs b s j id' fl = (cs', n) ->
  ~ (k' = k /\ id' = id /\ (fl mod 256)%Z = 0%Z) -> cs' k id = cs k id.
Proof.
  intros cks k id k' id' fl cs b s j cs' n H Hn. unfold std_check in H. destruct (cks k'); [injection H as <- _; reflexivity|].
  unfold ref_check in H. destruct (fl mod 256)%Z as [|[| |]|] eqn:Ef; try (injection H as <- _; reflexivity).
  injection H as <- _. unfold set_symbol. destruct (Nat.eqb_spec k k') as [->|]; [|reflexivity]. destruct (Z.eqb_spec id id') as [->|]; [|reflexivity]. tauto.
Qed.
Lemma no_def_peg : forall cks s k id E p i w r w', peg s (std_check cks) E p i w r w' -> no_def k id p -> env_no_def k id E -> snd w' k id = snd w k id.
Proof.
  intros cks s k id E p i w r w' H. induction H; intros Hp HE; cbn [no_def] in Hp; try reflexivity;
    try (exact (IHpeg Hp HE)); try (exact (IHpeg (proj1 Hp) HE));
    try (rewrite (IHpeg2 (proj2 Hp) HE); exact (IHpeg1 (proj1 Hp) HE));
    try (rewrite (IHpeg2 Hp HE); exact (IHpeg1 Hp HE)).
  - exact (IHpeg (conj Hp Hp) HE).
  - exact (IHpeg (conj Hp I) HE).
  - cbn [snd]. rewrite (std_check_frame _ _ _ _ _ _ _ _ _ _ _ _ H0 (proj2 Hp)). exact (IHpeg (proj1 Hp) HE).
  - cbn [snd]. rewrite (std_check_frame _ _ _ _ _ _ _ _ _ _ _ _ H0 (proj2 Hp)). exact (IHpeg (proj1 Hp) HE).
  - change (no_def k id (PGrammar defs start)) in Hp. rewrite no_def_gram in Hp. apply IHpeg; [|constructor; assumption].
    apply assoc_in in H. rewrite Forall_forall in Hp. apply (Hp _ H).
  - destruct (lookup_no_def _ _ _ _ _ _ HE H) as [A B]. exact (IHpeg A B).
Qed.
(** a definition, then anything that does not define the same reference, then a use *)
Lemma backref_spec : forall cks s k id E p m q i j1 ts1 w w1 j2 ts2 w2 j3 ts3 errs cs, cks k = BackReference ->
  no_def k id m -> no_def k id q -> env_no_def k id E ->
  peg s (std_check cks) E (PCheck p k id 0) i w (RSucc j1 ts1) w1 ->
  peg s (std_check cks) E m j1 w1 (RSucc j2 ts2) w2 ->
  peg s (std_check cks) E q j2 w2 (RSucc j3 ts3) (errs, cs) ->
  forall r w3, peg s (std_check cks) E (PCheck q k id 1) j2 w2 r w3 ->
  let text := firstn (j1 - i) (skipn i s) in
  w3 = (errs, cs) /\
  (firstn (List.length text) (skipn j3 s) = text -> r = RSucc (j3 + List.length text) ts3) /\
  (firstn (List.length text) (skipn j3 s) <> text -> r = RFail).
Proof.
  intros cks s k id E p m q i j1 ts1 w [e1 c1] j2 ts2 [e2 c2] j3 ts3 errs cs Hk Hm Hq HE H1 H2 H3 r w3 H4 text.
  apply (def_spec cks s E p k id i w j1 ts1 e1 c1 Hk) in H1. destruct H1 as (c0 & _ & Hc1).
  assert (Hcs : cs k id = text).
  { pose proof (no_def_peg _ _ k id _ _ _ _ _ _ H3 Hq HE) as A. pose proof (no_def_peg _ _ k id _ _ _ _ _ _ H2 Hm HE) as B. cbn [snd] in *. rewrite A, B, Hc1. unfold set_symbol. rewrite Nat.eqb_refl, Z.eqb_refl. reflexivity. }
  destruct (use_spec cks s E q k id j2 (e2, c2) Hk) as [U1 U2].
  destruct (list_eq_dec Byte.byte_eq_dec (firstn (List.length text) (skipn j3 s)) text) as [Y|N].
  - assert (A : peg s (std_check cks) E (PCheck q k id 1) j2 (e2, c2) (RSucc (j3 + List.length text) ts3) (errs, cs)).
    { apply U1. exists j3. split; [exact H3|]. rewrite Hcs. auto. }
    destruct (peg_det _ _ _ _ _ _ _ _ _ _ _ H4 A) as [-> ->]. split; [reflexivity|]. split; [reflexivity|contradiction].
  - assert (A : peg s (std_check cks) E (PCheck q k id 1) j2 (e2, c2) RFail (errs, cs)).
    { apply U2. right. exists j3, ts3. split; [exact H3|]. rewrite Hcs. exact N. }
    destruct (peg_det _ _ _ _ _ _ _ _ _ _ _ H4 A) as [-> ->]. split; [reflexivity|]. split; [contradiction|reflexivity].
Qed.
