(** Any number of parses and edits, when no memoized pattern contains or repeats a memoized pattern. *)
From Coq Require Import ZArith.
From Verif Require Import Base Model_Charset Model_Isa Model_Capture Model_Input Spec_Input Model_Code Model_VM Model_Pattern Spec_Peg Spec_Scope Spec_Run Proof_Eval Proof_Input Proof_Optimize Proof_Encode Proof_Codegen Proof_Machine Proof_Frag Proof_Compile Proof_Emit Proof_Main Model_Interval Spec_Interval Proof_Interval4 Model_Table Spec_Memo Proof_Memo Proof_Memo2 Proof_Memo3 Proof_Memo4 Proof_Flat Proof_Flat2.
Local Open Scope nat_scope.
Arguments Nat.max : simpl never.

Lemma flat_parts : forall p, memo_flat p -> memo_unrepeated p -> allp flat_ok [] p.
Proof.
  intros p HF HU E q P. destruct q; try exact Logic.I; cbn [flat_ok].
  - apply HU. left. exact P.
  - apply HU. right. exact P.
  - intros E' q' P'. destruct q'; try exact Logic.I. exact (HF _ _ _ _ _ _ P P').
Qed.

Section Rounds.
Variable bufsz : nat.
Hypothesis Hbuf : 0 < bufsz.
Variables (thr : nat) (p : pattern) (code : code) (M0 : Z) (Tl : list tent).
Hypothesis HR : ready thr p code M0 Tl.
Variable threshold : Z.
Variable CS : Type.
Variable check : nat -> CS -> list byte -> list byte -> nat -> Z -> Z -> CS * option nat.
Hypothesis HO : memo_once p.
Hypothesis HC : memo_recorded p.
Hypothesis HF : memo_flat p.
Hypothesis HU : memo_unrepeated p.
Notation TE := (TE p M0 Tl CS check).
Definition first (b : bool) : bool := negb b.

Section Text.
Variable s : list byte.
Hypothesis Hck : check_ok check s.
Variable b : bool.
Definition TF (t : ttable) (F : nat) : Prop := TE b s t.
Definition MF (id : Z) (E : env) (q : pattern) : Prop := MOK p M0 id E q /\ allp nm_ok E q.
Lemma TF_sync : forall tbl F id i, TF tbl F -> i <= List.length s -> TF (snd (t_get (tree_table threshold) tbl id i)) F.
Proof.
  intros tbl F id i (t0 & tr & -> & C & N & R & H) _. cbn [tree_table t_get tt_get].
  destruct (it_find t0 id (Z.of_nat i)) as [t1 v] eqn:Ef. cbn [snd]. exists t1, (tr ++ [OFind id (Z.of_nat i)]). split; [reflexivity|].
  split; [apply calm_keep; [exact C|exact Logic.I|intros []]|].
  split; [intro S; apply Forall_app; split; [exact (N S)|constructor; [intros []|constructor]]|].
  split; [rewrite it_run_snoc, R; cbn [it_step]; rewrite Ef; reflexivity|]. rewrite cref_snoc. exact H.
Qed.
Lemma TF_get : forall tbl F id E q i w e, TF tbl F -> MF id E q -> i <= List.length s -> fst (t_get (tree_table threshold) tbl id i) = Some e ->
  exists n r x, eval s check n E q i w = (Some r, w, x) /\
    match me_len e with
    | None => r = RFail
    | Some len => exists ts, r = RSucc (i + len) ts /\ flat (me_capt e) = pr None ts
    end.
Proof.
  intros tbl F id E q i w e HT [HM _] Hi He. apply TE_soft in HT.
  destruct (H_get p M0 Tl CS check s false threshold tbl 0 id E q i w e HT HM Hi He) as (n & r & x & A & _ & A'). exists n, r, x. auto.
Qed.
Lemma TF_put : forall tbl F id i len exam cnt cs, TF tbl F ->
  (forall en, e_len en = len -> e_capt en = cs -> e_at en = i -> fact p M0 Tl CS check s (fun x => (Z.of_nat x <= Z.of_nat (i + Nat.max exam (match len with Some l => l | None => 0 end)))%Z) id i en) ->
  0 < exam -> TF (t_put (tree_table threshold) tbl id i len exam cnt cs) F.
Proof.
  intros tbl F id i len exam cnt cs (t0 & tr & -> & C & N & R & H) Hf He. cbn [tree_table t_put tt_put].
  destruct (_ || _); [exists t0, tr; auto 10|].
  eexists. exists (tr ++ [OAdd id (Z.of_nat i) (Z.of_nat (i + Nat.max exam (match len with Some l => l | None => 0 end)))
    (Entry len (Nat.max exam (match len with Some l => l | None => 0 end)) cnt cs i)]). split; [reflexivity|].
  split; [apply calm_keep; [exact C|cbn; lia|intros []]|].
  split; [intro S; apply Forall_app; split; [exact (N S)|constructor; [intros []|constructor]]|].
  split; [rewrite it_run_snoc, R; reflexivity|]. rewrite cref_snoc. cbn [cref_step]. intros id' pos h e Hin.
  apply in_app_or in Hin. destruct Hin as [Hin|[Hin|[]]]; [apply H; exact Hin|]. injection Hin as <- <- <- <-.
  exists i. split; [reflexivity|]. split; [lia|]. apply Hf; reflexivity.
Qed.
Lemma TF_put_ok : forall tbl F id E q i n w j ts w' x cs, TF tbl F -> MF id E q -> i <= List.length s ->
  eval s check n E q i w = (Some (RSucc j ts), w', x) -> x <= S F -> flat cs = pr None ts ->
  TF (t_put (tree_table threshold) tbl id i (Some (j - i)) (Nat.max F j - i + 1) 1 (Proof_Machine.stored None cs)) F.
Proof.
  intros tbl F id E q i n w j ts w' x cs HT [HM _] Hi He HX Hc. apply TF_put; [exact HT| |lia]. rewrite pr_clip in Hc. cbn [clip] in Hc.
  intros en E1 E2 E3. pose proof (peg_from _ _ _ _ _ _ _ _ _ (eval_sound _ _ _ _ _ _ _ _ _ _ _ He)) as [Hj Hts]. cbn [Proof_Machine.stored] in E2.
  destruct (hard_pure p M0 CS check HC s _ _ _ _ _ _ _ _ _ HM He) as [-> Hv].
  split; [rewrite E2, E3, Hc; exact Hts|]. rewrite E1, (moved_same _ _ E3), E2, Hc. split.
  - intros E' q' HM'. exists (RSucc j ts). split; [|replace (i + (j - i)) with j by lia; reflexivity]. intro v. destruct (Hv v) as (n1 & x1 & A1 & A2).
    destruct (hard_agree p M0 CS check HO s _ _ _ _ _ _ _ _ _ _ _ HM HM' A1) as (n2 & x2 & B1 & B2). exists n2, x2. split; [exact B1|].
    rewrite (B2 eq_refl), (A2 eq_refl). lia.
  - intros E' q' HM'. exfalso. destruct HR as [_ R2 _ _]. eapply mok_tin; eassumption.
Qed.
Lemma TF_put_fail : forall tbl F id E q i n w w' x pos, TF tbl F -> MF id E q -> i <= List.length s ->
  eval s check n E q i w = (Some RFail, w', x) -> x <= S F ->
  TF (t_put (tree_table threshold) tbl id i None (Nat.max F pos - i + 1) 0 (Proof_Machine.stored None [])) F.
Proof.
  intros tbl F id E q i n w w' x pos HT [HM _] Hi He HX. apply TF_put; [exact HT| |lia].
  intros en E1 E2 E3. cbn [Proof_Machine.stored] in E2. destruct (hard_pure p M0 CS check HC s _ _ _ _ _ _ _ _ _ HM He) as [-> Hv].
  split; [rewrite E2; constructor|]. rewrite E1. split.
  - intros E' q' HM'. exists RFail. split; [|reflexivity]. intro v. destruct (Hv v) as (n1 & x1 & A1 & A2).
    destruct (hard_agree p M0 CS check HO s _ _ _ _ _ _ _ _ _ _ _ HM HM' A1) as (n2 & x2 & B1 & B2). exists n2, x2. split; [exact B1|].
    rewrite (B2 eq_refl), (A2 eq_refl). lia.
  - intros E' q' HM'. exfalso. destruct HR as [_ R2 _ _]. eapply mok_tin; eassumption.
Qed.

(** a parse keeps the table right, for later edits too *)
Lemma parse_step : forall t cs r w' f o st, TE b s t -> peg s check [] p 0 ([], cs) r w' ->
  vm_exec bufsz (tree_table threshold) check None f code s t cs = Some (ROk o st) -> TE b s (m_tbl st).
Proof.
  intros t cs r w' f o st Ht Hp Hx. destruct HR as [_ _ _ (c & l & lo & hi & HG & HL & HS & HE)].
  destruct (eval_complete _ _ _ _ _ _ _ _ _ Hp) as (n & x & Hn).
  assert (HO' : forall x, ~ In (IOpenCall x) c) by (intros y Hy; apply optimize_open in Hy; exact (encode_open _ _ _ HE Hy)).
  assert (HN : NoDup (labels (un c))) by (apply lc_nodup; intro y; rewrite lc_un; apply HL).
  assert (HA : forall n, In (IAny n) (un c) -> n = x01 \/ List.length s <= bufsz).
  { eapply (wide_any bufsz s False); [intros []|]. exact HS. }
  pose proof (CG_flat _ _ _ _ _ _ HG (flat_parts p HF HU)) as HG'.
  pose proof (frag_flat bufsz Hbuf ttable (tree_table threshold) CS check s (un c) thr MF (fun id E q H => proj2 H) HN HA Hck TF (fun t F F' H _ => H)
    TF_sync TF_get TF_put_ok TF_put_fail n [] p (un c) HG') as FR. apply frag_0 in FR; [|exact Hbuf].
  assert (R : exists f o st', run (sym_step bufsz (tree_table threshold) check None (un c)) f (MS 0 (i_new bufsz s) [] [] t [] cs (0, 0)) = Some (ROk o st') /\
     final ttable CS None TF r w' o st').
  { apply (wp_run bufsz ttable (tree_table threshold) CS check None (un c) (fun _ => False)); [intros ? []|].
    refine (FR (fun _ => None) 0 0 ([], cs) r w' x [] [] (final ttable CS None TF r w') 0 _ _ (Nat.le_0_l _) Hn I _ (i_new bufsz s) t (0, 0) _ Ht).
    - intros k ins Hti. destruct ins; try exact Hti. exfalso. apply (HO' name). apply nth_error_In in Hti. unfold un in Hti. apply in_map_iff in Hti. destruct Hti as (y & Ey & Hy). destruct y; try discriminate; injection Ey as <-; exact Hy.
    - intros y ll Hy. discriminate.
    - apply top_conts. exact Hbuf.
    - split; [apply inv_new; exact Hbuf|]. split; [apply abs_new|lia]. }
  destruct R as (f1 & o1 & st1 & R1 & Q1).
  destruct (code_of_sym bufsz Hbuf ttable (tree_table threshold) CS check None s False (False_ind _) TF c l lo hi code ([], cs) r w' t f1 o1 st1 HL HS
    (any1_notest _ (sh_any _ _ HS)) HE eq_refl R1 Q1) as (f2 & o2 & st2 & R2 & _ & _ & _ & Q2).
  pose proof (run_det _ _ _ _ _ _ Hx R2) as Eq. injection Eq as <- <-. exact Q2.
Qed.
End Text.

Lemma TE_more : forall b s t, TE b s t -> TE false s t.
Proof. intros b s t (t0 & tr & A & B & C & D & H). exists t0, tr. repeat (split; [assumption|]). split; [discriminate|]. auto. Qed.
Lemma history_table : forall e s t, history bufsz check threshold p code e s t -> TE (negb e) s t.
Proof.
  intros e s t H. induction H as [s|e s t f cs r w' o st H IH Hk Hp Hx|e s t ed H IH He Hg|e s t h H IH].
  - exists it_empty, []. split; [reflexivity|]. split; [split; [constructor|left; constructor]|]. split; [constructor|]. split; [reflexivity|]. intros id pos h en [].
  - eapply parse_step; eassumption.
  - eapply edit_step; try eassumption. destruct Hg as [->|Hg]; [left; reflexivity|right; exact Hg].
  - apply TE_ask. exact IH.
Qed.
End Rounds.

Lemma good_history : forall bufsz CS check thr threshold p code e s t,
  0 < bufsz -> supported p -> compiled_memo thr p code -> memo_once p -> memo_recorded p -> memo_flat p -> memo_unrepeated p ->
  history (CS:=CS) bufsz check threshold p code e s t -> good CS check thr p code s t.
Proof.
  intros bufsz CS check thr threshold p code e s t Hb Hs Hc HO HR HF HU H.
  destruct (compiled_ready _ _ _ Hs Hc) as (M0 & Tl & R). exists M0, Tl. split; [exact R|]. eapply TE_soft.
  eapply history_table; eassumption.
Qed.
