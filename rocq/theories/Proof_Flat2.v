(** Running the code of a pattern whose memoized patterns contain no memoized patterns: what the machine
    records while it matches a memoized pattern covers all that was looked at. *)
From Coq Require Import ZArith.
From Verif Require Import Base Model_Charset Model_Isa Model_Capture Model_Input Spec_Input Model_Code Model_VM Model_Pattern Spec_Peg Spec_Scope Spec_Run Proof_Eval Proof_Input Proof_Get Proof_Inline Proof_Sim Proof_Optimize Proof_Encode Proof_Codegen Proof_Machine Proof_Frag Proof_Compile Proof_Emit Proof_Main Model_Table Spec_Memo Proof_Flat.
Local Open Scope nat_scope.
Arguments Nat.max : simpl never.

Section Run.
Variable bufsz : nat.
Hypothesis Hbuf : 0 < bufsz.
Variable T : Type.
Variable ops : table_ops T.
Variable CS : Type.
Variable check : nat -> CS -> list byte -> list byte -> nat -> Z -> Z -> CS * option nat.
Variable s : list byte.
Variable P : program.
Variable thr : nat.
Variable MOK : Z -> env -> pattern -> Prop.
Hypothesis MOK_nm : forall id E q, MOK id E q -> allp nm_ok E q.
Hypothesis Hlabels : NoDup (labels P).
Hypothesis Hany : forall n, In (IAny n) P -> n = x01 \/ List.length s <= bufsz.
Hypothesis Hcheck : check_ok check s.
Notation eval := (eval s check).
Notation pr := (pr None).
Notation stored := (stored None).
Variable TI : T -> nat -> Prop.
Hypothesis TI_mono : forall t F F', TI t F -> F <= F' -> TI t F'.
Hypothesis H_sync : forall tbl F id i, TI tbl F -> i <= List.length s -> TI (snd (t_get ops tbl id i)) F.
Hypothesis H_get : forall tbl F id E q i w e, TI tbl F -> MOK id E q -> i <= List.length s -> fst (t_get ops tbl id i) = Some e ->
  exists n r x, eval n E q i w = (Some r, w, x) /\
    match me_len e with
    | None => r = RFail
    | Some len => exists ts, r = RSucc (i + len) ts /\ flat (me_capt e) = pr ts
    end.
Hypothesis H_put_ok : forall tbl F id E q i n w j ts w' x cs, TI tbl F -> MOK id E q -> i <= List.length s ->
  eval n E q i w = (Some (RSucc j ts), w', x) -> x <= S F -> flat cs = pr ts ->
  TI (t_put ops tbl id i (Some (j - i)) (Nat.max F j - i + 1) 1 (stored cs)) F.
Hypothesis H_put_fail : forall tbl F id E q i n w w' x pos, TI tbl F -> MOK id E q -> i <= List.length s ->
  eval n E q i w = (Some RFail, w', x) -> x <= S F ->
  TI (t_put ops tbl id i None (Nat.max F pos - i + 1) 0 (stored [])) F.

Definition TN (id : Z) (E : env) (q : pattern) : Prop := False.
Definition XN (st : mstate T CS) : Prop := False.
Lemma XN_inv : forall st, XN st -> (exists l, nth_error P (m_ip st) = Some (ILabel l)) \/ nth_error P (m_ip st) = Some IReturn ->
  exists st', sym_step bufsz ops check None P st = Next st' /\ XN st'.
Proof. intros st []. Qed.
Notation CG := (CG thr MOK TN).
(** how far a pattern without memoized patterns looked is recorded *)
Definition B (E : env) (p : pattern) (x F : nat) : Prop := allp nm_ok E p -> x <= S F.
Lemma B_mono : forall E p x F F', B E p x F -> F <= F' -> B E p x F'.
Proof. intros E p x F F' H L S. specialize (H S). lia. Qed.
Lemma B_down : forall E p x y F, B E p x F -> y <= x -> B E p y F.
Proof. intros E p x y F H L S. specialize (H S). lia. Qed.
Lemma B_max : forall E p x y F, B E p x F -> B E p y F -> B E p (Nat.max x y) F.
Proof. intros E p x y F H H' S. specialize (H S). specialize (H' S). lia. Qed.
Lemma B_le : forall E p x F, x <= S F -> B E p x F.
Proof. intros E p x F H S. exact H. Qed.
Notation frag_b E0 p0 := (frag_at bufsz T ops CS check None s P thr MOK TN (B E0 p0) TI XN).
Lemma frag_w : forall E1 p1 E2 p2 n E p c, (allp nm_ok E2 p2 -> allp nm_ok E1 p1) -> frag_b E1 p1 n E p c -> frag_b E2 p2 n E p c.
Proof.
  intros E1 p1 E2 p2 n E p c HI H L pre post k i0 w r w' x stk base Q F Hc Hp Hmt Hx Hat He Hi Hev Hn Hk.
  eapply H; try eassumption. destruct r; cbn [conts] in *; intros; apply Hk; try assumption; intro A; match goal with h : B E1 p1 _ _ |- _ => apply h; apply HI; exact A end.
Qed.
Lemma frag_c : forall E1 p1 E2 p2 n E p c, child E2 p2 E1 p1 -> frag_b E1 p1 n E p c -> frag_b E2 p2 n E p c.
Proof. intros E1 p1 E2 p2 n E p c C. apply frag_w. intro A. eapply allp_child; eassumption. Qed.

Notation at_ k i := (nth_error P k = Some i).
Lemma frag_memo_flat : forall n E q id sub L1, MOK id E q -> frag_b E q n E q sub ->
  frag_b E (PMemo q id) n E (PMemo q id) ([IMemoOpen L1 id] ++ sub ++ [IMemoClose; ILabel L1]).
Proof.
  intros n E q id sub L1 Hok Hq. pose proof (MOK_nm _ _ _ Hok) as HN. eapply frag_0 in Hq; [|exact Hbuf]. cbn [app].
  apply frag_head; [reflexivity|]. intros L k i0 w r w' x stk base Q F Hat He Hle Hev Hn Hk.
  apply (code_at_hd bufsz Hbuf) in Hat. destruct Hat as [A1 Hat]. cbv iota in A1. apply (code_at_app bufsz Hbuf) in Hat. destruct Hat as [A2 Hat].
  apply (code_at_hd bufsz Hbuf) in Hat. destruct Hat as [A3 Hat]. cbv iota in A3. apply (code_at_hd bufsz Hbuf) in Hat. destruct Hat as [A4 Hat]. cbv iota in A4. clear Hat.
  assert (I1 : lbl_index P L1 = S (S k + List.length sub)) by (apply lbl_index_at; assumption).
  assert (HB : forall y G, B E (PMemo q id) y G) by (intros y G A; apply allp_self in A; destruct A).
  replace (k + List.length (IMemoOpen L1 id :: sub ++ [IMemoClose; ILabel L1])) with (S (S (S k + List.length sub))) in Hk by (simpl; rewrite app_length; simpl; lia).
  rewrite eval_memo in Hev. eapply G_memoopen; [exact Hbuf|exact A1|]. intros tbl Ht. rewrite I1.
  split; [apply H_sync; assumption|]. destruct (fst (t_get ops tbl id i0)) as [ent|] eqn:Eg.
  - destruct (H_get _ _ _ _ _ _ w _ Ht Hok Hle Eg) as (n' & r' & x' & H1 & H3).
    pose proof Hev as Hev'. up1 H1 n n'. up1 Hev' n n'. rewrite H1 in Hev'. injection Hev' as -> <- ->.
    destruct ent as [[len|] cnt cs]; cbn [me_len me_capt] in *.
    + destruct H3 as (ts & -> & H3). assert (Hj : i0 <= i0 + len <= List.length s) by (eapply eval_succ; eassumption). split; [lia|].
      eapply G_label; [exact A4|]. apply Hk; auto.
    + subst r. apply Hk; auto.
  - eapply Hq; try eassumption; [exact I|]. destruct r; cbn [conts] in *.
    + intros F' HF Hx. apply FL_memo; [|apply Hk; auto]. intros tbl' pos Ht'. eapply H_put_fail; try eassumption. apply Hx. exact HN.
    + intros cs F' Hf HF Hx. cbn [add_capt fst snd s_kind s_capt app]. eapply G_memoclose; [exact A3| |].
      * intros tbl' Ht'. eapply H_put_ok; try eassumption. apply Hx. exact HN.
      * eapply G_label; [exact A4|]. apply Hk; auto.
    + intros F' HF Hx. apply Hk; auto.
Qed.

Ltac ch := eapply frag_c; [|eassumption]; constructor.
Theorem frag_flat : forall n E p c, CG E p c -> frag_b E p n E p c.
Proof.
  induction n as [n IHn] using lt_wf_ind. intros E p c H. induction H.
  - eapply frag_ext with (p' := get p); try exact Hbuf; try apply B_down; [intros; symmetry; apply get_ok|]. eapply frag_w; [|exact IHCG]. intro A. apply allp_get; [apply nm_plain|exact A].
  - eapply frag_chars; try eassumption; try apply B_le; [|reflexivity]. apply cg_alt_set. assumption.
  - eapply frag_alt; try eassumption; try apply B_mono; try apply B_down; try apply B_max; try apply B_le; ch.
  - eapply frag_alt_test; try eassumption; try apply B_mono; try apply B_down; try apply B_max; try apply B_le; ch.
  - eapply frag_seq; try eassumption; try apply B_mono; try apply B_down; try apply B_max; try apply B_le; ch.
  - eapply frag_star_span; try eassumption; try apply B_le.
  - destruct H1.
  - eapply frag_star; try eassumption; try apply B_mono; try apply B_down; try apply B_max; try apply B_le; ch.
  - eapply frag_plus; try eassumption; try apply B_mono; try apply B_down; try apply B_max; try apply B_le; [ch|].
    eapply frag_w; [|eassumption]. intro A. apply allp_intro; [exact Logic.I|]. intros E' q' C. inversion C; subst. apply allp_get; [apply nm_plain|].
    eapply allp_child; [exact A|constructor].
  - eapply (frag_opt_test) with (h := IChar b); try eassumption; try apply B_mono; try apply B_down; try apply B_max; try apply B_le; [reflexivity|intros b' Hb; injection Hb as <-; assumption|discriminate].
  - eapply (frag_opt_test) with (h := ISet s0); try eassumption; try apply B_mono; try apply B_down; try apply B_max; try apply B_le; [reflexivity|discriminate|intros b' Hb; injection Hb as <-; assumption].
  - eapply frag_ext with (p' := PAlt (get q) PEmpty); try exact Hbuf; try apply B_down; [intros; rewrite eval_opt, !eval_alt, get_ok; reflexivity|]. eapply frag_w; [|exact IHCG].
    intro A. apply allp_intro; [exact Logic.I|]. intros E' q' C. inversion C; subst; [|apply allp_empty; apply nm_plain]. apply allp_get; [apply nm_plain|].
    eapply allp_child; [exact A|constructor].
  - eapply frag_not; try eassumption; ch.
  - eapply frag_and; try eassumption; ch.
  - eapply frag_cap; try eassumption; ch.
  - eapply frag_cap_full; try eassumption; try apply B_le.
  - eapply frag_cap_late; try eassumption; try apply B_mono; try apply B_le; ch.
  - apply frag_memo_flat; assumption.
  - eapply frag_check; try eassumption; ch.
  - eapply frag_le with (E' := E) (p' := search_grammar q (skip_of csub)); try exact Hbuf; try apply B_down; [intros; eapply search_sim; eassumption|intros L HL; exact HL|].
    eapply frag_w; [|exact IHCG2]. intro A. apply allp_search; [apply nm_plain|apply nm_wk|assumption|]. eapply allp_child; [exact A|constructor].
  - eapply frag_emptyop; try eassumption; try apply B_le.
  - eapply frag_leaf; try eassumption. eapply frag_w; [|exact IHCG]. intro A. eapply allp_def; [apply nm_plain|apply nm_inl|assumption|exact A|eassumption].
  - eapply frag_grammar; try eassumption; [apply XN_inv|]. intros m b c Hm Hb HC. eapply frag_w; [|apply IHn; assumption].
    intro A. eapply allp_def; [apply nm_plain|apply nm_inl|assumption|exact A|eassumption].
  - eapply frag_chars; try eassumption; try apply B_le; [apply cg_class|reflexivity].
  - eapply frag_chars; try eassumption; try apply B_le; [apply cg_lit|]. clear. induction str; [reflexivity|exact IHstr].
  - eapply frag_nt; try eassumption; [apply XN_inv|]. intros m E' b c Hm Hb HC. eapply frag_c; [|apply IHn; assumption]. constructor. exact Hb.
  - eapply frag_ext with (p' := q); try exact Hbuf; try apply B_down; [intros; apply eval_inl|ch].
  - eapply frag_chars; try eassumption; try apply B_le; [apply cg_dot; assumption|]. cbn [forallb charlike]. rewrite andb_true_r. apply negb_true_iff. apply byte_eqb_neq. assumption.
  - eapply frag_err_none; try eassumption; try apply B_le.
  - eapply frag_err; try eassumption; ch.
  - eapply frag_chars; try eassumption; try apply B_le; [apply cg_empty|reflexivity].
Qed.
End Run.
