(** Parsing with a tree table, and edits. *)
From Coq Require Import ZArith.
From Verif Require Import Base Model_Charset Model_Isa Model_Capture Model_Input Spec_Input Model_Code Model_VM Model_Pattern Spec_Peg Spec_Scope Spec_Run Proof_Eval Proof_Input Proof_Get Proof_Inline Proof_Sim Proof_Optimize Proof_Encode Proof_Codegen Proof_Machine Proof_Frag Proof_Diverge Proof_Compile Proof_Emit Proof_Main Model_Interval Spec_Interval Proof_Interval4 Model_Table Spec_Memo Proof_Memo Proof_Memo2.
Local Open Scope nat_scope.
Arguments Nat.max : simpl never.

Lemma supported_pok_in : forall (M : Z -> env -> pattern -> Prop) p E, supported p -> (forall id E' q, part E p E' (PMemo q id) -> M id E' q) -> pok False M E p.
Proof.
  intros M p E (H1 & H2 & H3). revert E H1 H2 H3.
  induction p using pattern_ind'; intros E H1 H2 H3 HM;
    try (cbn [well_scoped unique_defs any_one] in *);
    try (cbn [pok]; split; [apply IHp1|apply IHp2]; try tauto; intros id' E' q' P; apply HM; (eapply part_step; [constructor|exact P]); fail);
    try (cbn [pok]; apply IHp; try tauto; intros id' E' q' P; apply HM; (eapply part_step; [constructor|exact P]); fail);
    try exact I; try (left; exact H3).
  - cbn [pok]. split; [apply HM; apply part_self|]. apply IHp; try tauto. intros id' E' q' P. apply HM. eapply part_step; [constructor|exact P].
  - change (well_scoped (PGrammar defs st)) in H1. change (unique_defs (PGrammar defs st)) in H2. change (any_one (PGrammar defs st)) in H3.
    apply pok_grammar. pose proof (ws_dok _ _ H1) as Hd. apply unique_grammar in H2. apply any_one_grammar in H3. destruct H2 as [H2 H2'].
    split; [left; exact Hd|]. split; [exact H2|]. pose proof (proj1 (well_scoped_grammar _ _) H1) as H1'. rewrite Forall_forall in *. intros [k q] Hk. cbn [snd].
    apply (H (k, q) Hk); [apply (H1' _ Hk)|apply (H2' _ Hk)|apply (H3 _ Hk)|]. intros id' E' q' P. apply HM. eapply part_step; [econstructor; exact Hk|exact P].
  - cbn [pok]. split; [|tauto]. apply IHp; try tauto. intros id' E' q' P. apply HM. eapply part_step; [constructor|exact P].
  - destruct o as [q|]; [|exact I]. cbn [pok]. apply H; try tauto. intros id' E' q' P. apply HM. eapply part_step; [constructor|exact P].
  - destruct o as [q|]; [|exact I]. cbn [pok]. apply H; try tauto. intros id' E' q' P. apply HM. eapply part_step; [constructor|exact P].
Qed.

(** a compiled pattern *)
Record ready (thr : nat) (p : pattern) (code : code) (M0 : Z) (Tl : list tent) : Prop := Ready {
  rd_nodup : NoDup (map tid Tl);
  rd_tid : forall t, In t Tl -> (M0 < tid t)%Z;
  rd_mok : forall m E q, In (m, E, q) Tl -> exists id, MOK p M0 id E q;
  rd_code : exists c l lo hi, CG thr (MOK p M0) (tin Tl) [] p (un c) /\ lab lo hi c /\ shape False c l /\ encode (optimize c) = Some code }.
Lemma compiled_ready : forall thr p code, supported p -> compiled_memo thr p code -> exists M0 Tl, ready thr p code M0 Tl.
Proof.
  intros thr p code Hs (fuel & st0 & c & st1 & Hb & Hc & He).
  unfold compile in Hc. destruct (compile_f thr fuel p st0) as [c0 st1'| | |] eqn:E0; try discriminate. injection Hc as <- <-.
  assert (MS : forall id E q E' q', same_all E q E' q' -> MOK p (cs_memo st0) id E q -> MOK p (cs_memo st0) id E' q').
  { intros id E q E' q' H [H1 (E1 & q1 & H2 & H3)]. split; [exact H1|]. exists E1, q1. split; [exact H2|]. intros s CS check i w r w' x.
    rewrite (H3 s CS check i w r w' x). apply H. }
  assert (HP : pok False (MOK p (cs_memo st0)) [] p).
  { apply supported_pok_in; [exact Hs|]. intros id E q P. split; [eapply Hb; exact P|]. exists E, q. split; [exact P|]. intros s CS check i w r w' x. tauto. }
  destruct (emit False thr (MOK p (cs_memo st0)) MS fuel [] p st0 c0 st1' E0 HP) as (Tl & [F1 F2 F3 F4 F5] & HC & HL & _ & HS).
  exists (cs_memo st0), Tl. split; [exact F3|intros t Ht; apply F4; exact Ht|exact F5|]. do 4 eexists. eauto.
Qed.

Section Parse.
Variable bufsz : nat.
Hypothesis Hbuf : 0 < bufsz.
Variables (thr : nat) (p : pattern) (code : code) (M0 : Z) (Tl : list tent).
Hypothesis HR : ready thr p code M0 Tl.
Variable threshold : Z.
Variable CS : Type.
Variable check : nat -> CS -> list byte -> list byte -> nat -> Z -> Z -> CS * option nat.

Section Text.
Variable s : list byte.
Hypothesis Hck : check_ok check s.
Variable strict : bool.
Hypothesis Hagree : forall id E q E' q' n i w r w' x, MOK p M0 id E q -> MOK p M0 id E' q' -> eval s check n E q i w = (Some r, w', x) ->
  exists n' x', eval s check n' E' q' i w = (Some r, w', x') /\ (strict = true -> x' = x).
Hypothesis Hpure : forall id E q n i w r w' x, MOK p M0 id E q -> eval s check n E q i w = (Some r, w', x) ->
  w' = w /\ forall v, exists n' x', eval s check n' E q i v = (Some r, v, x') /\ (strict = true -> x' = x).
Notation TI := (TI p M0 Tl CS check s strict).

Lemma tree_some : forall t cs0 r errs cs', TI t 0 -> peg s check [] p 0 ([], cs0) r (errs, cs') ->
  exists f o st, vm_exec bufsz (tree_table threshold) check None f code s t cs0 = Some (ROk o st) /\
    agrees None r o /\ o_errs o = errs /\ m_cs st = cs' /\ exists F, TI (m_tbl st) F.
Proof.
  intros t cs0 r errs cs' Ht Hr. destruct HR as [R1 R2 R3 (c & l & lo & hi & HC & HL & HS & HE)].
  destruct (eval_complete _ _ _ _ _ _ _ _ _ Hr) as (n & x & Hn).
  edestruct (run_code bufsz Hbuf ttable (tree_table threshold) CS check None s False (False_ind _) thr (MOK p M0) (tin Tl) Hck (XB strict)) with (TI := TI) (t := t) (w := ([], cs0) : world CS)
    as (f & o & st & R & Q1 & Q2 & Q3 & Q4);
    [apply XB_mono|apply XB_down|apply XB_max|apply XB_le|apply TI_mono|apply H_sync|apply H_get|apply H_put_ok; assumption|apply H_put_fail; assumption
    |apply H_tget|apply H_tput; assumption|exact HC|exact HL|exact HS|apply any1_notest; apply (sh_any _ _ HS)|exact HE|exact Hn|reflexivity|exact Ht|].
  exists f, o, st. cbn [snd fst] in *. split; [exact R|]. split; [exact Q1|]. split; [exact Q2|]. split; [exact Q3|]. eexists. exact Q4.
Qed.
Lemma tree_div : forall t cs0 f, TI t 0 -> (forall r w', ~ peg s check [] p 0 ([], cs0) r w') ->
  vm_exec bufsz (tree_table threshold) check None f code s t cs0 = None.
Proof.
  intros t cs0 f Ht Hd. destruct HR as [R1 R2 R3 (c & l & lo & hi & HC & HL & HS & HE)]. change cs0 with (snd (([], cs0) : world CS)).
  eapply (div_code bufsz Hbuf ttable (tree_table threshold) CS check None s False (False_ind _) thr (MOK p M0) (tin Tl) Hck (XB strict)) with (TI := TI) (t := t) (w := ([], cs0) : world CS);
    [apply XB_mono|apply XB_down|apply XB_max|apply XB_le|apply TI_mono|apply H_sync|apply H_get|apply H_put_ok; assumption|apply H_put_fail; assumption
    |apply H_tget|apply H_tput; assumption|exact HC|exact HL|exact HS|apply any1_notest; apply (sh_any _ _ HS)|exact HE| |reflexivity|exact Ht].
  intros (n & r & w' & x & Hn). apply (Hd r w'). eapply eval_sound. exact Hn.
Qed.
Lemma TI_new : forall F, TI tt_new F.
Proof.
  intro F. exists it_empty, []. split; [reflexivity|]. split; [split; [constructor|left; constructor]|]. split; [constructor|]. split; [reflexivity|]. intros id pos h e [].
Qed.
End Text.

(* ---------- the same text ---------- *)
Section Same.
Variable s : list byte.
Hypothesis Hck : check_ok check s.
Hypothesis HA : memo_agree s check p.
Hypothesis HP : memo_pure s check p.
Lemma soft_agree : forall id E q E' q' n i w r w' x, MOK p M0 id E q -> MOK p M0 id E' q' -> eval s check n E q i w = (Some r, w', x) ->
  exists n' x', eval s check n' E' q' i w = (Some r, w', x') /\ (false = true -> x' = x).
Proof.
  intros id E q E' q' n i w r w' x [_ (E1 & q1 & M1 & S1)] [_ (E2 & q2 & M2 & S2)] He.
  destruct (proj2 (S1 s CS check i w r w' x)) as (n1 & He1); [eauto|]. apply eval_sound in He1. apply (HA _ _ _ _ _ M1 M2) in He1.
  apply eval_complete in He1. destruct He1 as (n2 & x2 & He2). destruct (proj1 (S2 s CS check i w r w' x2)) as (n3 & He3); [eauto|].
  exists n3, x2. split; [exact He3|discriminate].
Qed.
Lemma soft_pure : forall id E q n i w r w' x, MOK p M0 id E q -> eval s check n E q i w = (Some r, w', x) ->
  w' = w /\ forall v, exists n' x', eval s check n' E q i v = (Some r, v, x') /\ (false = true -> x' = x).
Proof.
  intros id E q n i w r w' x [_ (E1 & q1 & M1 & S1)] He.
  destruct (proj2 (S1 s CS check i w r w' x)) as (n1 & He1); [eauto|]. apply eval_sound in He1. apply (HP _ _ _ M1) in He1. destruct He1 as [-> Hv].
  split; [reflexivity|]. intro v. specialize (Hv v). apply eval_complete in Hv. destruct Hv as (n2 & x2 & He2). destruct (proj1 (S1 s CS check i v r v x2)) as (n3 & He3); [eauto|].
  exists n3, x2. split; [exact He3|discriminate].
Qed.
Notation TS t := (TI p M0 Tl CS check s false t 0).
Lemma TS_any : forall t F, TI p M0 Tl CS check s false t F -> TS t.
Proof.
  intros t F (t0 & tr & A & B & C & D & H). exists t0, tr. repeat (split; [assumption|]). intros id pos h e He.
  destruct (H id pos h e He) as (i & H1 & H2 & H3). exists i. split; [exact H1|]. split; [exact H2|]. eapply fact_mono; [|exact H3].
  intros x _. split; intro; discriminate.
Qed.
Lemma TS_runs : forall t t', after_runs bufsz check threshold p code s t t' -> TS t -> TS t'.
Proof.
  intros t t' H. induction H as [t|t f cs r w' o st t' Hr Hx H IH|t h t' H IH]; intro Ht; [exact Ht| |apply IH; apply TI_ask; exact Ht]. apply IH. destruct w' as [errs cs'].
  destruct (tree_some s Hck false soft_agree soft_pure t cs r errs cs' Ht Hr) as (f' & o' & st' & R & _ & _ & _ & F & Q).
  pose proof (run_det _ _ _ _ _ _ Hx R) as E. injection E as <- <-. eapply TS_any. exact Q.
Qed.
End Same.

(* ---------- edits ---------- *)
Hypothesis HO : memo_once p.
Hypothesis HC : memo_recorded p.
Lemma once_agree : forall s, memo_agree s check p.
Proof. intros s id E q E' q' H H' i w r w' Hp. destruct (HO _ _ _ _ _ H H') as [<- <-]. exact Hp. Qed.
Lemma rec_pure : forall s, memo_pure s check p.
Proof. intro s. apply effectless_pure. apply memo_recorded_effectless. exact HC. Qed.
Lemma hard_agree : forall s id E q E' q' n i w r w' x, MOK p M0 id E q -> MOK p M0 id E' q' -> eval s check n E q i w = (Some r, w', x) ->
  exists n' x', eval s check n' E' q' i w = (Some r, w', x') /\ (true = true -> x' = x).
Proof.
  intros s id E q E' q' n i w r w' x [_ (E1 & q1 & M1 & S1)] [_ (E2 & q2 & M2 & S2)] He. destruct (HO _ _ _ _ _ M1 M2) as [<- <-].
  destruct (proj1 (S2 s CS check i w r w' x)) as (n3 & He3); [apply S1; eauto|]. exists n3, x. auto.
Qed.
Lemma hard_pure : forall s id E q n i w r w' x, MOK p M0 id E q -> eval s check n E q i w = (Some r, w', x) ->
  w' = w /\ forall v, exists n' x', eval s check n' E q i v = (Some r, v, x') /\ (true = true -> x' = x).
Proof.
  intros s id E q n i w r w' x [_ (E1 & q1 & M1 & S1)] He.
  destruct (proj2 (S1 s CS check i w r w' x)) as (n1 & He1); [eauto|].
  destruct (eval_quiet s CS check n1 q1 E1) with (i := i) as (o & x' & Q); [intros E' q'; eapply recorded_effectless; eapply HC; exact M1|].
  rewrite Q in He1. injection He1 as -> -> ->. split; [reflexivity|]. intro v. destruct (proj1 (S1 s CS check i v r v x)) as (n3 & He3); [exists n1; apply Q|].
  exists n3, x. auto.
Qed.

Section Move.
Variables s s' : list byte.
Variables d d' m : nat.
Hypothesis Hsame : forall u, d + u < m -> nth_error s (d + u) = nth_error s' (d' + u).
Hypothesis Hbefore : byte_before s d = byte_before s' d'.
Lemma eval_moved : forall id E q n u w r w' x, MOK p M0 id E q -> eval s check n E q (d + u) w = (Some r, w', x) -> x <= m ->
  exists n' r' x', eval s' check n' E q (d' + u) w = (Some r', w', x') /\ rR d d' r r' /\ xR d d' x x'.
Proof.
  intros id E q n u w r w' x [_ (E1 & q1 & M1 & S1)] He Hx.
  destruct (proj2 (S1 s CS check (d + u) w r w' x)) as (n1 & He1); [eauto|].
  pose proof (eval_other CS check check s s' d d' m Hsame Hbefore n1 q1 E1 (HC _ _ _ M1) u w) as R. rewrite He1 in R. cbn [Rres] in R.
  destruct (R Hx) as (r' & x' & He2 & R1 & R2). destruct (proj1 (S1 s' CS check (d' + u) w r' w' x')) as (n3 & He3); [eauto|]. eauto 8.
Qed.
Lemma reps_moved : forall id E q, MOK p M0 id E q -> forall i w j w' ts x, reps1 CS check s E q i w j w' ts x -> forall u, i = d + u -> x <= m ->
  exists v x', j = d + v /\ reps1 CS check s' E q (d' + u) w (d' + v) w' (map (tmove (mv d d')) ts) x' /\ xR d d' x x'.
Proof.
  intros id E q HM i w j w' ts x H. induction H as [n i w j w' ts x He|n i w j w1 ts x k w' us y He Hr IH]; intros u Hu Hx.
  - subst i. destruct (eval_moved _ _ _ _ _ _ _ _ _ HM He Hx) as (n' & r' & x' & He' & R1 & R2). inversion R1; subst. exists u0, x'. split; [reflexivity|].
    split; [econstructor; exact He'|exact R2].
  - subst i. destruct (eval_moved _ _ _ _ _ _ _ _ _ HM He ltac:(lia)) as (n' & r' & x' & He' & R1 & R2). inversion R1; subst.
    destruct (IH u0 eq_refl ltac:(lia)) as (v & y' & -> & B1 & B2). exists v, (Nat.max x' y'). split; [reflexivity|].
    rewrite map_app. split; [eapply r1_more; eassumption|apply xR_max; assumption].
Qed.
Lemma fact_moved : forall (b b' : nat -> Prop) id u e, (forall x, b x -> x <= m) -> (forall x x', b x -> xR d d' x x' -> b' x') ->
  fact p M0 Tl CS check s b id (d + u) e -> fact p M0 Tl CS check s' b' id (d' + u) e.
Proof.
  intros b b' id u e Hb Hb' (F0 & F1 & F2).
  assert (EC : flat (moved_capt (d' + u) e) = map (tmove (mv d d')) (flat (moved_capt (d + u) e))).
  { unfold moved_capt. rewrite !flat_shift, map_tmove_twice. eapply map_tmove_from; [|exact F0]. intros st Hst. unfold mv. lia. }
  split; [exact F0|]. rewrite EC. split.
  - intros E q HM. destruct (F1 E q HM) as (r & A & B). exists (match r with RSucc j ts => RSucc (mv d d' j) (map (tmove (mv d d')) ts) | RAbort j => RAbort (mv d d' j) | RFail => RFail end).
    split.
    + intro w. destruct (A w) as (n & x & A1 & A2). destruct (eval_moved _ _ _ _ _ _ _ _ _ HM A1 (Hb _ A2)) as (n' & r' & x' & He' & R1 & R2).
      exists n', x'. split; [|eapply Hb'; eassumption]. rewrite He'. inversion R1; subst; unfold mv; try reflexivity; replace (d + u0 - d + d') with (d' + u0) by lia; reflexivity.
    + destruct (e_len e) as [len|]; [|rewrite B; reflexivity]. rewrite B. unfold mv at 1. replace (d + u + len - d + d') with (d' + u + len) by lia. reflexivity.
  - intros E q HT. destruct (F2 E q HT) as (len & A & B). exists len. split; [exact A|]. intro w. destruct (B w) as (x & B1 & B2).
    destruct (rd_mok _ _ _ _ _ HR _ _ _ HT) as (mid & HM).
    destruct (reps_moved _ _ _ HM _ _ _ _ _ _ B1 u eq_refl (Hb _ B2)) as (v & x' & Ev & C1 & C2). exists x'. split; [|eapply Hb'; eassumption].
    replace (d' + u + len) with (d' + v) by lia. exact C1.
Qed.
End Move.

Definition TE (first : bool) (s : list byte) (t : ttable) : Prop := exists t0 tr, t = Some t0 /\ calm tr /\ (first = true -> Forall (fun o => ~ is_shift o) tr) /\
  it_run tr = Some t0 /\ forall id pos h e, In (id, pos, h, e) (cref_run tr) -> exists i, pos = Z.of_nat i /\ (pos < h)%Z /\
    fact p M0 Tl CS check s (fun x => (Z.of_nat x <= h)%Z) id i e.
Lemma TE_parse : forall s t F, TI p M0 Tl CS check s true t F -> TE true s t.
Proof.
  intros s t F (t0 & tr & A & B & C & D & H). exists t0, tr. repeat (split; [assumption|]). intros id pos h e He.
  destruct (H id pos h e He) as (i & H1 & H2 & H3). exists i. split; [exact H1|]. split; [exact H2|]. eapply fact_mono; [|exact H3].
  intros x [_ X]. exact (X eq_refl).
Qed.
Lemma TE_soft : forall b s t, TE b s t -> TI p M0 Tl CS check s false t 0.
Proof.
  intros b s t (t0 & tr & A & B & _ & D & H). exists t0, tr. split; [exact A|]. split; [exact B|]. split; [discriminate|]. split; [exact D|]. intros id pos h e He.
  destruct (H id pos h e He) as (i & H1 & H2 & H3). exists i. split; [exact H1|]. split; [exact H2|]. eapply fact_mono; [|exact H3].
  intros x _. split; intro; discriminate.
Qed.

Lemma nth_error_firstn_lt : forall (A : Type) (l : list A) n k, k < n -> nth_error (firstn n l) k = nth_error l k.
Proof. intros A l n. revert l. induction n as [|n IH]; intros l k H; [lia|]. destruct l as [|a l]; [destruct k; reflexivity|]. destruct k as [|k]; [reflexivity|]. cbn. apply IH. lia. Qed.
Lemma nth_error_skipn_add : forall (A : Type) n (l : list A) k, nth_error (skipn n l) k = nth_error l (n + k).
Proof. induction n as [|n IH]; intros [|a l] k; try reflexivity; [destruct k; reflexivity|]. cbn. apply IH. Qed.

Lemma edit_step : forall first s t e, TE first s t -> edit_ok s e -> first = true \/ gentle e ->
  TE false (edit_text s e) (tt_edit t (ed_start e) (ed_end e) (List.length (ed_text e))).
Proof.
  intros first s t [a z ins] (t0 & tr & -> & C & N & R & H) [Ha Hz] G. cbn [ed_start ed_end ed_text] in *. unfold gentle in G. cbn [ed_start ed_end ed_text] in G.
  unfold tt_edit. set (high := if a =? z then (Z.of_nat a + 1)%Z else Z.of_nat z). set (amt := (Z.of_nat (List.length ins) - (Z.of_nat z - Z.of_nat a))%Z).
  assert (Hh : (Z.of_nat z <= high /\ Z.of_nat a < high /\ Z.of_nat a - high <= amt)%Z) by (unfold high, amt; destruct (Nat.eqb_spec a z); lia).
  assert (C' : calm (tr ++ [OShift (Z.of_nat a) high amt])).
  { apply calm_shift; [exact C|cbn; lia|]. destruct G as [G|G]; [right; exact (N G)|left; unfold amt; lia]. }
  destruct (run_spec _ C') as (t1 & R1 & _). pose proof R1 as R2. rewrite it_run_snoc, R in R2. cbn [it_step] in R2. rewrite R2.
  exists t1, (tr ++ [OShift (Z.of_nat a) high amt]). split; [reflexivity|]. split; [exact C'|]. split; [discriminate|]. split; [exact R1|].
  intros id pos h e Hin. rewrite cref_snoc in Hin. cbn [cref_step] in Hin. apply in_map_iff in Hin. destruct Hin as ([[[id0 l] h0] e0] & Em & Hin).
  apply filter_In in Hin. destruct Hin as [Hin Hf]. apply orb_true_iff in Hf. rewrite !Z.ltb_lt in Hf. destruct (H _ _ _ _ Hin) as (i & -> & Hlt & HF).
  destruct Hf as [Hf|Hf].
  - (* after the edit *)
    rewrite (proj2 (Z.leb_le _ _)) in Em by lia. injection Em as <- <- <- <-.
    exists (i - z + (a + List.length ins)). split; [unfold amt; lia|]. split; [lia|].
    replace i with (i + 0) in HF by lia. replace (i - z + (a + List.length ins)) with (i - z + (a + List.length ins) + 0) by lia.
    assert (NS : forall k, z <= k -> nth_error s k = nth_error (edit_text s (Edit a z ins)) (k - z + (a + List.length ins))).
    { intros k Hk. unfold edit_text. cbn [ed_start ed_end ed_text]. rewrite nth_error_app2; rewrite firstn_length_le by lia; [|lia].
      rewrite nth_error_app2 by lia. rewrite nth_error_skipn_add. f_equal. lia. }
    eapply (fact_moved s (edit_text s (Edit a z ins)) i (i - z + (a + List.length ins)) (Z.to_nat h0)); [| | | |exact HF].
    + intros u _. rewrite (NS (i + u)) by lia. f_equal. lia.
    + destruct i as [|i]; [lia|]. replace (S i - z + (a + List.length ins)) with (S (i - z + (a + List.length ins))) by lia. cbn [byte_before]. apply NS. lia.
    + intros x Hx. cbv beta in Hx. lia.
    + intros x x' Hx [[-> ->]|(v & -> & ->)]; cbv beta in *; unfold amt; lia.
  - (* before the edit *)
    rewrite (proj2 (Z.leb_gt _ _)) in Em by lia. injection Em as <- <- <- <-. exists i. split; [reflexivity|]. split; [exact Hlt|].
    change i with (0 + i) in HF. change i with (0 + i). eapply (fact_moved s (edit_text s (Edit a z ins)) 0 0 (Z.to_nat h0)); [| | | |exact HF].
    + intros u Hu. unfold edit_text. cbn [ed_start ed_end ed_text]. rewrite nth_error_app1 by (rewrite firstn_length_le; lia). cbn [Nat.add]. symmetry. apply nth_error_firstn_lt. lia.
    + reflexivity.
    + intros x Hx. cbv beta in Hx. lia.
    + intros x x' Hx [[-> ->]|(v & -> & ->)]; cbv beta in *; lia.
Qed.
Lemma TE_ask : forall b s t h, TE b s t -> TE b s (tt_ask t h).
Proof.
  intros b s t h (t0 & tr & -> & C & N & R & H). cbn [tt_ask option_map]. eexists. exists (tr ++ [OPos h]). split; [reflexivity|].
  split; [apply calm_keep; [exact C|exact Logic.I|intros []]|].
  split; [intro S; apply Forall_app; split; [exact (N S)|constructor; [intros []|constructor]]|].
  split; [rewrite it_run_snoc, R; reflexivity|]. rewrite cref_snoc. exact H.
Qed.
Lemma edits_step : forall es t t', after_edits t es t' -> forall s, TE false s t -> edits_ok s es -> Forall gentle es -> TE false (edits_text s es) t'.
Proof.
  intros es t t' A. induction A as [t|t e es t' A IH|t h es t' A IH]; intros s Ht Ho Hg; [exact Ht| |apply IH; [apply TE_ask; exact Ht|exact Ho|exact Hg]].
  destruct Ho as [Ho1 Ho2]. inversion Hg; subst. unfold edits_text. cbn [fold_left].
  apply (IH (edit_text s e)); try assumption. eapply edit_step; [exact Ht|exact Ho1|right; assumption].
Qed.
Lemma edits_first : forall es t t', after_edits t es t' -> forall s, TE true s t -> edits_ok s es -> Forall gentle (tl es) -> TI p M0 Tl CS check (edits_text s es) false t' 0.
Proof.
  intros es t t' A. induction A as [t|t e es t' A IH|t h es t' A IH]; intros s Ht Ho Hg; [eapply TE_soft; exact Ht| |apply IH; [apply TE_ask; exact Ht|exact Ho|exact Hg]].
  destruct Ho as [Ho1 Ho2]. unfold edits_text. cbn [fold_left].
  eapply TE_soft. eapply (edits_step es); [exact A| |exact Ho2|exact Hg]. eapply edit_step; [exact Ht|exact Ho1|left; reflexivity].
Qed.
End Parse.
