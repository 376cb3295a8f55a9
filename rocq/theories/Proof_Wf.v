(** Well-formed patterns have a result at every position. *)
From Verif Require Import Base Model_Charset Model_Isa Model_Capture Model_VM Model_Pattern Spec_Peg Spec_Scope Spec_Run Spec_Props Spec_Wf Proof_Eval Proof_Inline Proof_Capture.
Local Open Scope nat_scope.

Lemma peg_move : forall s CS check E p i w r w', peg s (CS:=CS) check E p i w r w' ->
  match r with RSucc j _ => i <= j /\ (j = i -> nullable E p) | _ => True end.
Proof.
  intros s CS check E p i w r w' H. induction H; try exact I; try (split; [lia|intro; solve [constructor|lia]]).
  - split; [lia|]. intro E1. destruct str as [|b str]; [constructor|cbn [List.length] in E1; lia].
  - split; [lia|]. intro E1. assert (bN n = 0%N) by lia. destruct n; try discriminate. constructor.
  - destruct IHpeg1 as [A B], IHpeg2 as [C D]. split; [lia|]. intro. subst. constructor; [apply B|apply D]; lia.
  - destruct r; try exact I. destruct (H0 j ts eq_refl).
  - destruct r; try exact I. destruct (H1 j0 ts0 eq_refl).
  - destruct r; try exact I. destruct IHpeg as [A B]. split; [exact A|]. intro. apply nu_alt_l. auto.
  - destruct r; try exact I. destruct IHpeg2 as [A B]. split; [exact A|]. intro. apply nu_alt_r. auto.
  - destruct r; try exact I. destruct IHpeg as [A B]. split; [exact A|]. intro E1. specialize (B E1). inversion B; subst. constructor. assumption.
  - destruct r; try exact I. destruct IHpeg as [A B]. split; [exact A|]. intro. constructor.
  - destruct r; try exact I. destruct (H0 j ts eq_refl).
  - destruct IHpeg as [A B]. split; [exact A|]. intro. constructor. auto.
  - destruct r; try exact I. destruct (H0 j ts eq_refl).
  - destruct r; try exact I. destruct IHpeg as [A B]. split; [exact A|]. intro. constructor. auto.
  - destruct IHpeg as [A B]. split; [lia|]. intro. constructor. apply B. lia.
  - destruct r; try exact I. destruct (H0 j ts eq_refl).
  - destruct r; try exact I. destruct IHpeg as [A B]. split; [exact A|]. intro. constructor. auto.
  - destruct r; try exact I. destruct IHpeg as [A B]. split; [exact A|]. intro. constructor. auto.
  - destruct r; try exact I. destruct IHpeg2 as [A B]. split; [lia|]. intro. lia.
  - destruct r; try exact I. destruct IHpeg as [A B]. split; [exact A|]. intro. econstructor; eauto.
  - destruct r; try exact I. destruct IHpeg as [A B]. split; [exact A|]. intro. econstructor; eauto.
  - destruct r; try exact I. destruct IHpeg as [A B]. split; [exact A|]. intro. constructor. auto.
Qed.

Section Total.
Variable s : list byte.
Variable CS : Type.
Variable check : nat -> CS -> list byte -> list byte -> nat -> Z -> Z -> CS * option nat.
Hypothesis Hck : check_ok check s.
Notation peg := (peg s check).
Notation len := (List.length s).
Definition has_result (c : closure) (i : nat) : Prop := forall w, exists r w', peg (fst c) (snd c) i w r w'.

Lemma wf_inside : forall d c, well_formed d -> within c d -> well_formed c.
Proof.
  intros d c H Hi c' Hr. apply H. clear H. induction Hr; [eapply re_step; [apply re_self|exact Hi]|]. eapply re_step; [exact IHHr|assumption].
Qed.
Lemma wf_below : forall d c, well_formed d -> below c d -> well_formed c.
Proof. intros. eapply wf_inside; [eassumption|constructor; assumption]. Qed.
Lemma pred_cases : forall r, (exists j ts, r = RSucc j ts) \/ (forall j ts, r <> RSucc j ts).
Proof. intros [|j ts|j]; [right; discriminate|left; eauto|right; discriminate]. Qed.

Lemma total_at : forall m i, len - i <= m -> i <= len -> (forall j, i < j -> j <= len -> forall c, well_formed c -> has_result c j) ->
  forall c, Acc below c -> well_formed c -> has_result c i.
Proof.
  intros m i _ Hi IHm c HA. induction HA as [c _ IH]. intros HW w. destruct c as [E p]. cbn [fst snd].
  assert (IB : forall E' q, below (E', q) (E, p) -> forall w, exists r w', peg E' q i w r w').
  { intros E' q Hb w0. apply (IH _ Hb (wf_below _ _ HW Hb)). }
  assert (IS : forall E' q, within (E', q) (E, p) -> forall j, i < j -> j <= len -> forall w, exists r w', peg E' q j w r w').
  { intros E' q Hb j Hj Hl w0. apply (IHm j Hj Hl _ (wf_inside _ _ HW Hb)). }
  assert (IL : forall E q w j ts w', peg E q i w (RSucc j ts) w' -> i <= j /\ j <= len /\ (j = i -> nullable E q)).
  { intros E' q w0 j ts w1 HR. pose proof (peg_move _ _ _ _ _ _ _ _ _ HR) as [A B]. split; [exact A|]. split; [|exact B]. pose proof (peg_inside _ _ _ _ _ _ _ _ _ Hck HR Hi) as [C _]. exact C. }
  destruct (HW (E, p) (re_self _)) as [_ HS].
  destruct p.
  - destruct (IB E p1 (be_alt_l _ _ _) w) as (r & w1 & H1). destruct r as [|j ts|j].
    + destruct (IB E p2 (be_alt_r _ _ _) w1) as (r & w2 & H2). exists r, w2. eapply peg_alt_2; eassumption.
    + exists (RSucc j ts), w1. apply peg_alt_1; [exact H1|discriminate].
    + exists (RAbort j), w1. apply peg_alt_1; [exact H1|discriminate].
  - destruct (IB E p1 (be_seq_l _ _ _) w) as (r & w1 & H1). destruct (pred_cases r) as [(j & ts & ->)|Hr]; [|exists r, w1; apply peg_seq_no1; assumption].
    destruct (IL _ _ _ _ _ _ H1) as (A & B & C).
    assert (HR : exists r w2, peg E p2 j w1 r w2).
    { destruct (Nat.eq_dec j i) as [->|Hj]; [apply IB; constructor; auto|]. apply IS; [apply in_seq_r|lia|exact B]. }
    destruct HR as (r & w2 & H2). destruct (pred_cases r) as [(k & us & ->)|Hr]; [exists (RSucc k (ts ++ us)), w2; eapply peg_seq_ok; eassumption|exists r, w2; eapply peg_seq_no2; eassumption].
  - cbn [sensible] in HS. destruct (IB E p (be_star _ _) w) as (r & w1 & H1). destruct r as [|j ts|j].
    + exists (RSucc i []), w1. apply peg_star_end. exact H1.
    + destruct (IL _ _ _ _ _ _ H1) as (A & B & C). assert (j <> i) by (intro E1; apply HS; auto).
      destruct (IHm j ltac:(lia) B (E, PStar p) HW w1) as (r & w2 & H2). cbn [fst snd] in H2. destruct r as [|k us|k].
      * exfalso. clear -H2. remember RFail as r eqn:Er. remember (PStar p) as q eqn:Eq. destruct H2; try discriminate; congruence.
      * exists (RSucc k (ts ++ us)), w2. eapply peg_star_more; eassumption.
      * exists (RAbort k), w2. eapply peg_star_abort2; eassumption.
    + exists (RAbort j), w1. apply peg_star_abort1. exact H1.
  - cbn [sensible] in HS. destruct (IB E p (be_plus _ _) w) as (r & w1 & H1). destruct (pred_cases r) as [(j & ts & ->)|Hr].
    2:{ exists r, w1. apply peg_plus. apply peg_seq_no1; assumption. }
    destruct (IL _ _ _ _ _ _ H1) as (A & B & C). assert (j <> i) by (intro E1; apply HS; auto).
    assert (HWS : well_formed (E, PStar p)).
    { assert (HWp : well_formed (E, p)) by (apply (wf_below _ _ HW); constructor). intros c Hc. assert (HC : c = (E, PStar p) \/ reachable (E, p) c).
      { induction Hc; [left; reflexivity|]. right. destruct IHHc as [->|HC]; [|eapply re_step; eassumption]. inversion H0; subst. match goal with X : below _ _ |- _ => inversion X; subst end. apply re_self. }
      destruct HC as [->|HC]; [|apply HWp; exact HC]. split; [|exact HS]. constructor. intros c Hb. inversion Hb; subst. apply HWp. apply re_self. }
    destruct (IHm j ltac:(lia) B (E, PStar p) HWS w1) as (r & w2 & H2). cbn [fst snd] in H2.
    destruct (pred_cases r) as [(k & us & ->)|Hr]; [exists (RSucc k (ts ++ us)), w2; apply peg_plus; eapply peg_seq_ok; eassumption|exists r, w2; apply peg_plus; eapply peg_seq_no2; eassumption].
  - destruct (IB E p (be_opt _ _) w) as (r & w1 & H1). destruct r as [|j ts|j].
    + exists (RSucc i []), w1. apply peg_opt. eapply peg_alt_2; [exact H1|]. constructor.
    + exists (RSucc j ts), w1. apply peg_opt. apply peg_alt_1; [exact H1|discriminate].
    + exists (RAbort j), w1. apply peg_opt. apply peg_alt_1; [exact H1|discriminate].
  - destruct (IB E p (be_not _ _) w) as (r & w1 & H1). destruct r as [|j ts|j].
    + exists (RSucc i []), w1. apply peg_not_ok. exact H1.
    + exists RFail, w1. eapply peg_not_fail. exact H1.
    + exists (RAbort j), w1. apply peg_not_abort. exact H1.
  - destruct (IB E p (be_and _ _) w) as (r & w1 & H1). destruct (pred_cases r) as [(j & ts & ->)|Hr]; [exists (RSucc i ts), w1; eapply peg_and_ok; exact H1|exists r, w1; apply peg_and_no; assumption].
  - destruct (IB E p (be_cap _ _ _) w) as (r & w1 & H1). destruct (pred_cases r) as [(j & ts & ->)|Hr]; [eexists _, w1; eapply peg_cap_ok; exact H1|exists r, w1; apply peg_cap_no; assumption].
  - destruct (IB E p (be_memo _ _ _) w) as (r & w1 & H1). exists r, w1. apply peg_memo. exact H1.
  - destruct (IB E p (be_check _ _ _ _ _) w) as (r & [errs cs] & H1). destruct (pred_cases r) as [(j & ts & ->)|Hr].
    + destruct (check ck cs (firstn (j - i) (skipn i s)) s j id flag) as [cs' [n|]] eqn:Ec.
      * eexists _, _. eapply peg_check_ok; eassumption.
      * eexists _, _. eapply peg_check_reject; eassumption.
    + eexists _, _. apply peg_check_no; eassumption.
  - cbn [sensible] in HS. destruct (assoc defs start) as [b|] eqn:Eb; [|congruence]. destruct (IB (defs :: E) b (be_grammar _ _ _ _ Eb) w) as (r & w1 & H1). exists r, w1. eapply peg_grammar; eassumption.
  - destruct (IB E p (be_search _ _) w) as (r & w1 & H1). destruct r as [|j ts|j].
    + destruct (Nat.lt_ge_cases i len) as [Hl|Hl]; [|exists RFail, w1; apply peg_search_end; assumption].
      destruct (IHm (S i) ltac:(lia) Hl (E, PSearch p) HW w1) as (r & w2 & H2). exists r, w2. eapply peg_search_next; eassumption.
    + eexists _, w1. apply peg_search_here; [exact H1|discriminate].
    + eexists _, w1. apply peg_search_here; [exact H1|discriminate].
  - destruct (nth_error s i) as [b|] eqn:Eb; [destruct (cs_has s0 b) eqn:Ec|]; eexists _, _; [eapply peg_class_ok|eapply peg_class_fail|eapply peg_class_end]; eassumption.
  - destruct (list_eq_dec Byte.byte_eq_dec (firstn (List.length str) (skipn i s)) str); eexists _, _; [apply peg_lit_ok|apply peg_lit_fail]; assumption.
  - destruct inl as [q|].
    + destruct (IB E q (be_inl _ _ _) w) as (r & w1 & H1). exists r, w1. apply peg_inlined. exact H1.
    + cbn [sensible] in HS. destruct (lookup E name) as [[b E']|] eqn:Eb; [|congruence]. destruct (IB E' b (be_nt _ _ _ _ Eb) w) as (r & w1 & H1). exists r, w1. eapply peg_nonterm; eassumption.
  - destruct (Nat.le_gt_cases (i + N.to_nat (bN n)) len); eexists _, _; [apply peg_dot_ok|apply peg_dot_fail]; assumption.
  - destruct w as [errs cs]. destruct recover as [q|].
    + destruct (IB E q (be_error _ _ _) (errs ++ [(i, msg)], cs)) as (r & w1 & H1). exists r, w1. apply peg_error. exact H1.
    + eexists _, _. apply peg_error_abort.
  - destruct (empty_op_holds s i op) eqn:Eo; eexists _, _; [apply peg_emptyop_ok|apply peg_emptyop_fail]; assumption.
  - eexists _, _. apply peg_empty.
Qed.
Theorem wf_total : forall c i, well_formed c -> i <= len -> has_result c i.
Proof.
  assert (H : forall m i, len - i <= m -> i <= len -> forall c, well_formed c -> has_result c i).
  { induction m as [|m IH]; intros i Hm Hi c Hc; (eapply total_at; [exact Hm|exact Hi| |apply (Hc c (re_self _))|exact Hc]); intros j Hj Hl c' Hc'.
    - lia.
    - apply IH; [lia|exact Hl|exact Hc']. }
  intros c i Hc Hi. apply (H (len - i) i (le_n _) Hi c Hc).
Qed.
End Total.

(* ---------- the check is sound ---------- *)
Lemma null_sound : forall n E p, may_be_null n E p = false -> ~ nullable E p.
Proof.
  induction n as [|n IH]; intros E p H Hn; [discriminate|].
  destruct Hn; cbn [may_be_null] in H; try discriminate; try (eapply IH; [exact H|assumption]).
  - apply orb_false_iff in H. destruct H as [H H']. exact (IH _ _ H Hn).
  - apply orb_false_iff in H. destruct H as [H H']. exact (IH _ _ H' Hn).
  - apply andb_false_iff in H. destruct H as [H|H]; [exact (IH _ _ H Hn1)|exact (IH _ _ H Hn2)].
  - rewrite H0 in H. exact (IH _ _ H Hn).
  - rewrite H0 in H. exact (IH _ _ H Hn).
Qed.
Lemma starts_sound : forall n E p, starts_check n E p = true -> Acc below (E, p).
Proof.
  induction n as [|n IH]; intros E p H; [discriminate|]. constructor. intros c Hb. inversion Hb; subst; cbn [starts_check] in H; try (apply IH; exact H);
    try (apply andb_prop in H; destruct H; apply IH; assumption).
  - apply andb_prop in H. destruct H as [K1 K2]. apply orb_prop in K2. destruct K2 as [K2|K2]; [|apply IH; exact K2].
    match goal with X : nullable _ _ |- _ => destruct (null_sound (S n) _ _ (proj1 (negb_true_iff _) K2) X) end.
  - match goal with X : assoc _ _ = _ |- _ => rewrite X in H end. apply IH. exact H.
  - match goal with X : lookup _ _ = _ |- _ => rewrite X in H end. apply IH. exact H.
Qed.
Lemma sensible_sound : forall n E p, sensible_check n E p = true -> sensible (E, p).
Proof.
  intros n E p H. destruct p; cbn [sensible_check sensible] in *; try exact I.
  - apply (null_sound n). apply negb_true_iff. exact H.
  - apply (null_sound n). apply negb_true_iff. exact H.
  - destruct (assoc defs start); discriminate.
  - destruct inl; [exact I|]. destruct (lookup E name); discriminate.
Qed.
Definition scopes_ok (n : nat) (E : env) : Prop := forall F E1, (exists pre, E = pre ++ F :: E1) -> forall k q, In (k, q) F -> scopes_check n (F :: E1) q = true.
Lemma scopes_grammar : forall n E defs st, scopes_check n E (PGrammar defs st) = true -> forall k q, In (k, q) defs -> scopes_check n (defs :: E) q = true.
Proof.
  intros n E defs st H. cbn [scopes_check] in H. apply andb_prop in H. destruct H as [_ H]. generalize (defs :: E) as E1, H. clear H. intro E1.
  induction defs as [|[k q] defs IH]; intros H k' q' Hin; [destruct Hin|]. apply andb_prop in H. destruct H as [H1 H2]. destruct Hin as [Eq|Hin]; [injection Eq as <- <-; exact H1|]. eapply IH; eassumption.
Qed.
Lemma scopes_cons : forall n E defs, scopes_ok n E -> (forall k q, In (k, q) defs -> scopes_check n (defs :: E) q = true) -> scopes_ok n (defs :: E).
Proof.
  intros n E defs HE Hd F E1 (pre & Eq) k q Hin. destruct pre as [|G pre]; cbn [app] in Eq.
  - injection Eq as -> ->. eapply Hd. exact Hin.
  - injection Eq as -> ->. eapply HE; [exists pre; reflexivity|exact Hin].
Qed.
Lemma scopes_lookup : forall n E x b E', scopes_ok n E -> lookup E x = Some (b, E') -> scopes_check n E' b = true /\ scopes_ok n E'.
Proof.
  intros n E x b E' H. induction E as [|F E IH]; intro L; [discriminate|]. cbn [lookup] in L. destruct (assoc F x) as [b'|] eqn:Eb.
  - injection L as <- <-. split; [|exact H]. apply (H F E (ex_intro _ [] eq_refl) x). apply assoc_in. exact Eb.
  - apply IH; [|exact L]. intros G E1 (pre & Eq). apply H. exists (F :: pre). rewrite Eq. reflexivity.
Qed.
Definition checked (n : nat) (c : closure) : Prop := scopes_check n (fst c) (snd c) = true /\ scopes_ok n (fst c).
Lemma checked_within : forall n c d, checked n d -> within c d -> checked n c.
Proof.
  intros n c d [H1 H2] Hw.
  assert (HB : forall E p q, scopes_check n E p = true -> scopes_ok n E -> (match p with
      | PAlt l r | PSeq l r => q = l \/ q = r
      | PStar p | PPlus p | POpt p | PNot p | PAnd p | PCap p _ | PMemo p _ | PCheck p _ _ _ | PSearch p | PError _ (Some p) | PNonTerm _ (Some p) => q = p
      | _ => False end) -> checked n (E, q)).
  { intros E p q A B C. split; [|exact B]. cbn [fst snd]. destruct p; try contradiction; cbn [scopes_check] in A; apply andb_prop in A; destruct A as [_ A];
      try (subst; exact A); try (apply andb_prop in A; destruct A; destruct C; subst; assumption); [destruct inl|destruct recover]; try contradiction; subst; exact A. }
  destruct Hw as [c d Hb|E p q]; [|eapply (HB E (PSeq p q)); [exact H1|exact H2|right; reflexivity]].
  destruct Hb; cbn [fst snd] in *; try (eapply HB; [exact H1|exact H2|cbn; auto]; fail).
  - split; cbn [fst snd]; [|apply scopes_cons; [exact H2|eapply scopes_grammar; exact H1]]. eapply scopes_grammar; [exact H1|]. apply assoc_in. exact H.
  - eapply scopes_lookup; eassumption.
Qed.
Theorem wf_check_sound : forall n p, wf_check n p = true -> well_formed ([], p).
Proof.
  intros n p H c Hc. assert (HC : checked n c).
  { induction Hc; [split; [exact H|]; intros F E1 (pre & Eq); destruct pre; discriminate|]. eapply checked_within; eassumption. }
  destruct c as [E q], HC as [HC _]. cbn [fst snd] in HC. 
  assert (HH : starts_check n E q && sensible_check n E q = true) by (destruct q; cbn [scopes_check] in HC; apply andb_prop in HC; apply HC).
  apply andb_prop in HH. destruct HH. split; [eapply starts_sound; eassumption|eapply sensible_sound; eassumption].
Qed.
