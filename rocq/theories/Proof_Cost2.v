(** What a table has an answer for, it has an answer for until the text is edited. *)
From Coq Require Import ZArith.
From Verif Require Import Base Model_Charset Model_Isa Model_Capture Model_Input Model_Code Model_VM Model_Interval Spec_Interval Proof_Interval4 Proof_Props4 Model_Table Model_Share Spec_Memo Proof_Memo2 Spec_Cost Proof_Share.
Local Open Scope nat_scope.

Section Table.
Variable threshold : Z.
Definition plain (t : ttable) : Prop := exists t0 tr, t = Some t0 /\ calm tr /\ Forall (fun o => ~ is_shift o) tr /\ it_run tr = Some t0.
Definition knows (t t' : ttable) : Prop := plain t -> plain t' /\ forall id pos, answered t id pos -> answered t' id pos.
Lemma knows_refl : forall t, knows t t. Proof. intros t H. auto. Qed.
Lemma knows_trans : forall a b c, knows a b -> knows b c -> knows a c.
Proof. intros a b c H K P. destruct (H P) as [P1 A]. destruct (K P1) as [P2 B]. auto. Qed.
Lemma plain_new : plain tt_new.
Proof. exists it_empty, []. split; [reflexivity|]. split; [split; [constructor|left; constructor]|]. split; [constructor|reflexivity]. Qed.

Lemma answered_ref : forall t0 tr id pos, calm tr -> Forall (fun o => ~ is_shift o) tr -> it_run tr = Some t0 ->
  (answered (Some t0) id pos <-> exists h v, In (id, Z.of_nat pos, h, v) (ref_run tr)).
Proof.
  intros t0 tr id pos C N R. pose proof (p_find_plain tr t0 id (Z.of_nat pos) C N R) as F. unfold answered, tt_get.
  destruct (it_find t0 id (Z.of_nat pos)) as [t1 [v|]]; cbn [fst snd option_map] in *.
  - destruct F as (h & F & _). split; [intros _; exists h, v; exact F|discriminate].
  - split; [intro H; elim H; reflexivity|]. intros (h & v & H). elim (F h v H).
Qed.
Lemma plain_add : forall t0 (tr : list (iop entry)) o, calm tr -> Forall (fun o => ~ is_shift o) tr -> it_run tr = Some t0 -> sane o -> ~ is_shift o ->
  calm (tr ++ [o]) /\ Forall (fun o => ~ is_shift o) (tr ++ [o]) /\ it_run (tr ++ [o]) = it_step (Some t0) o /\ ref_run (tr ++ [o]) = ref_step (ref_run tr) o.
Proof.
  intros t0 tr o C N R So No. split; [apply calm_keep; assumption|]. split; [apply Forall_app; split; [exact N|constructor; [exact No|constructor]]|].
  split; [rewrite it_run_snoc, R; reflexivity|]. unfold ref_run. rewrite fold_left_app. reflexivity.
Qed.
Lemma knows_get : forall t id pos, knows t (snd (t_get (tree_table threshold) t id pos)).
Proof.
  intros t id pos (t0 & tr & -> & C & N & R). cbn [tree_table t_get tt_get]. destruct (it_find t0 id (Z.of_nat pos)) as [t1 v] eqn:Ef. cbn [snd].
  destruct (plain_add t0 tr (OFind id (Z.of_nat pos)) C N R Logic.I (fun x => x)) as (C' & N' & R' & F'). cbn [it_step] in R'. rewrite Ef in R'. cbn [fst ref_step] in R', F'.
  split; [exists t1; eexists; split; [reflexivity|]; eauto|]. intros i p. rewrite (answered_ref t0 tr i p C N R), (answered_ref t1 _ i p C' N' R'), F'. auto.
Qed.
Lemma put_add : forall t0 tr id pos len e c cs, calm tr -> Forall (fun o => ~ is_shift o) tr -> it_run tr = Some t0 -> 0 < e ->
  (threshold <= Z.of_nat e)%Z -> len <> Some 0 -> exists t1 tr', tt_put threshold (Some t0) id pos len e c cs = Some t1 /\ calm tr' /\ Forall (fun o => ~ is_shift o) tr' /\ it_run tr' = Some t1 /\
    exists h v, ref_run tr' = ref_run tr ++ [(id, Z.of_nat pos, h, v)].
Proof.
  intros t0 tr id pos len e c cs C N R He Hth Hl. cbn [tt_put]. rewrite (proj2 (Z.ltb_ge _ _) Hth). cbn [orb].
  destruct (match len with Some 0 => true | _ => false end) eqn:El; [destruct len as [[|]|]; congruence|]. clear El. set (ex := Nat.max e _). assert (0 < ex) by (unfold ex; lia).
  destruct (plain_add t0 tr (OAdd id (Z.of_nat pos) (Z.of_nat (pos + ex)) (Entry len ex c cs pos)) C N R ltac:(cbn; lia) (fun x => x)) as (C' & N' & R' & F').
  do 2 eexists. split; [reflexivity|]. split; [exact C'|]. split; [exact N'|]. split; [exact R'|]. do 2 eexists. exact F'.
Qed.
Lemma knows_put : forall t id pos len e c cs, 0 < e -> knows t (t_put (tree_table threshold) t id pos len e c cs).
Proof.
  intros t id pos len e c cs He P. pose proof P as (t0 & tr & -> & C & N & R). cbn [tree_table t_put].
  destruct (Z_lt_le_dec (Z.of_nat e) threshold) as [L|L].
  { cbn [tt_put]. rewrite (proj2 (Z.ltb_lt _ _) L). cbn [orb]. auto. }
  assert (D : len = Some 0 \/ len <> Some 0) by (destruct len as [[|]|]; auto; right; discriminate). destruct D as [->|D].
  { cbn [tt_put]. rewrite orb_true_r. auto. }
  destruct (put_add t0 tr id pos len e c cs C N R He L D) as (t1 & tr' & -> & C' & N' & R' & h & v & F). split; [exists t1, tr'; auto|].
  intros i p. rewrite (answered_ref t0 tr i p C N R), (answered_ref t1 tr' i p C' N' R'), F. intros (h' & v' & H). exists h', v'. apply in_or_app. auto.
Qed.
Lemma put_answered : forall t id pos len e c cs, plain t -> 0 < e -> (threshold <= Z.of_nat e)%Z -> len <> Some 0 -> answered (tt_put threshold t id pos len e c cs) id pos.
Proof.
  intros t id pos len e c cs (t0 & tr & -> & C & N & R) He L D.
  destruct (put_add t0 tr id pos len e c cs C N R He L D) as (t1 & tr' & -> & C' & N' & R' & h & v & F).
  rewrite (answered_ref t1 tr' id pos C' N' R'), F. exists h, v. apply in_or_app. right. left. reflexivity.
Qed.

Section Run.
Variable bufsz : nat.
Variable CS : Type.
Variable check : nat -> CS -> list byte -> list byte -> nat -> Z -> Z -> CS * option nat.
Variable code : code.
Local Notation ops := (tree_table threshold).
Local Notation step := (vm_step bufsz ops check None code).
Implicit Types st : mstate ttable CS.

Lemma knows_after : forall n st, knows (m_tbl st) (m_tbl (state_after step n st)).
Proof.
  induction n as [|n IH]; intro st; cbn [state_after]; [apply knows_refl|].
  pose proof (R_step bufsz ttable ops CS check knows knows_refl knows_trans knows_get knows_put None code st) as S. destruct (step st) as [st1|o st1|]; cbn [Rres] in S.
  - eapply knows_trans; [exact S|apply IH].
  - exact S.
  - apply knows_refl.
Qed.

Lemma fail_len : forall stk st st1, do_fail bufsz ops None stk st = Next st1 -> List.length (m_stk st1) < List.length stk.
Proof.
  induction stk as [|[k c] stk IH]; intros st st1 H; cbn [do_fail s_kind] in H; [discriminate|]. cbn [List.length].
  destruct k; try (apply IH in H; lia); injection H as <-; cbn; lia.
Qed.
Lemma fail_suffix : forall stk st st1, do_fail bufsz ops None stk st = Next st1 -> exists gone, gone <> [] /\ stk = gone ++ m_stk st1.
Proof.
  induction stk as [|[k c] stk IH]; intros st st1 H; cbn [do_fail s_kind] in H; [discriminate|].
  destruct k; try (apply IH in H; destruct H as (g & _ & ->); eexists (_ :: g); split; [discriminate|reflexivity]); injection H as <-; eexists [_]; (split; [discriminate|reflexivity]).
Qed.
Lemma suffix_once : forall A (a b c : list A), a ++ c = b ++ c -> a = b.
Proof. intros A a b c H. eapply app_inv_tail. exact H. Qed.

Hypothesis Hth : (threshold <= 1)%Z.
Lemma fail_stores : forall stk st st1 gone id pos c, plain (m_tbl st) -> do_fail bufsz ops None stk st = Next st1 -> stk = gone ++ m_stk st1 ->
  In (SE (KMemo id pos) c) gone -> answered (m_tbl st1) id pos.
Proof.
  induction stk as [|[k c0] stk IH]; intros st st1 gone id pos c P H Hg Hi; [discriminate|].
  destruct gone as [|e gone]; [destruct Hi|]. cbn [app] in Hg. injection Hg as <- Hg. cbn [do_fail s_kind] in H.
  destruct k as [r|ip off|id0 pos0|id0 pos0 cnt|id0 pos0|id0 flag pos0].
  1, 5, 6: (destruct Hi as [Hi|Hi]; [discriminate|]; eapply IH; eassumption).
  - injection H as <-. cbn in Hg. destruct Hi as [Hi|Hi]; [discriminate|]. apply (f_equal (@List.length _)) in Hg. rewrite app_length in Hg. destruct gone; [destruct Hi|cbn in Hg; lia].
  - assert (P' : plain (m_tbl (memoize ops None id0 pos0 None 0 [] st))) by (apply knows_put; [lia|exact P]).
    destruct Hi as [Hi|Hi]; [|eapply IH; eassumption]. injection Hi as -> -> ->.
    pose proof (R_fail bufsz ttable ops CS knows knows_refl knows_trans knows_put None stk (memoize ops None id pos None 0 [] st)) as K.
    rewrite H in K. cbn [Rres] in K. apply (K P'). unfold memoize. cbn [m_tbl set_tbl tree_table t_put]. apply put_answered; [exact P|lia|lia|discriminate].
  - injection H as <-. cbn in Hg. destruct Hi as [Hi|Hi]; [discriminate|]. apply (f_equal (@List.length _)) in Hg. rewrite app_length in Hg. destruct gone; [destruct Hi|cbn in Hg; lia].
Qed.
Lemma fail_step : forall st st1 gone id pos c, plain (m_tbl st) -> fail bufsz ops None st = Next st1 -> m_stk st = gone ++ m_stk st1 ->
  In (SE (KMemo id pos) c) gone -> answered (m_tbl st1) id pos.
Proof. intros st st1 gone id pos c P H. eapply fail_stores; [exact P|exact H]. Qed.
Lemma none_gone : forall st st1 (gone : list sentry) e, m_stk st = gone ++ m_stk st1 -> In e gone -> List.length (m_stk st) <= List.length (m_stk st1) -> False.
Proof. intros st st1 gone e H Hi L. apply (f_equal (@List.length _)) in H. rewrite app_length in H. destruct gone; [destruct Hi|cbn in H; lia]. Qed.

Lemma add_len : forall cs st, List.length (m_stk (Model_VM.add cs st)) = List.length (m_stk st).
Proof. intros cs st. unfold Model_VM.add. destruct (m_stk st) as [|e0 l0] eqn:Es; cbn [add_capt]; cbn; reflexivity. Qed.
Lemma p_failed : forall i st st1 gone id pos c, plain (m_tbl st) -> decode code (m_ip st) = Some i -> tests i = true -> step st = Next st1 ->
  m_stk st = gone ++ m_stk st1 -> In (SE (KMemo id pos) c) gone -> answered (m_tbl st1) id pos.
Proof.
  intros i st st1 gone id pos c P D Ti H Hg Hi. unfold vm_step in H. rewrite D in H.
  assert (N : forall st', m_tbl st' = m_tbl st -> m_stk st' = m_stk st -> fail bufsz ops None st' = Next st1 -> answered (m_tbl st1) id pos).
  { intros st' E1 E2 K. eapply fail_step; [|exact K| |exact Hi]; [rewrite E1; exact P|congruence]. }
  assert (G : forall st', m_stk st' = m_stk st -> Next st' = Next st1 -> answered (m_tbl st1) id pos).
  { intros st' E K. injection K as <-. exfalso. eapply none_gone; [exact Hg|exact Hi|]. rewrite E. apply Nat.le_refl. }
  pose proof (tbl_peek ttable CS st) as Tp. assert (Sp : m_stk (snd (peek st)) = m_stk st) by (unfold peek; destruct (i_peek (m_src st)); reflexivity).
  destruct i; try discriminate; cbn [exec_d] in H.
  - destruct (peek st) as [[b'|] st']; cbn [snd] in *; [|eapply N; eassumption]. destruct (byte_eqb b b'); [eapply G; [|exact H]; exact Sp|eapply N; eassumption].
  - eapply N; [| |exact H]; reflexivity.
  - destruct (peek st) as [[b'|] st']; cbn [snd] in *; [|eapply N; eassumption]. destruct (cs_has s b'); [eapply G; [|exact H]; exact Sp|eapply N; eassumption].
  - destruct (i_advance bufsz (m_src st) (N.to_nat (bN n))) as [[|] src]; [eapply G; [|exact H]|eapply N; [| |exact H]]; reflexivity.
  - destruct (peek st) as [b' st']; cbn [snd] in *. destruct (_ =? 0)%N; [eapply N; eassumption|eapply G; [|exact H]; exact Sp].
  - pose proof (knows_get (m_tbl st) id0 (mpos st) P) as [P' _]. destruct (t_get ops (m_tbl st) id0 (mpos st)) as [[[[len|] cnt cs]|] tbl]; cbn [snd] in P'.
    + exfalso. injection H as <-. eapply none_gone; [exact Hg|exact Hi|]. change (List.length (m_stk st) <= List.length (m_stk (Model_VM.add cs (set_tbl tbl st)))). rewrite add_len. apply Nat.le_refl.
    + eapply fail_step; [| exact H| |exact Hi]; [exact P'|exact Hg].
    + exfalso. injection H as <-. eapply none_gone; [exact Hg|exact Hi|]. cbn. lia.
Qed.

Lemma p_closed : forall st st1 rest id pos c, plain (m_tbl st) -> decode code (m_ip st) = Some IMemoClose -> m_stk st = SE (KMemo id pos) c :: rest -> pos < mpos st ->
  step st = Next st1 -> answered (m_tbl st1) id pos.
Proof.
  intros st st1 rest id pos c P D Hs Hp H. unfold vm_step in H. rewrite D in H. cbn [exec_d] in H.
  pose proof (tbl_pop ttable CS true st) as Tp. assert (Mp : mpos (snd (pop true st)) = mpos st).
  { unfold pop. rewrite Hs. cbn [snd]. unfold Model_VM.add. destruct (add_capt _ _ _). reflexivity. }
  assert (Fp : fst (pop true st) = Some (SE (KMemo id pos) c)) by (unfold pop; rewrite Hs; reflexivity).
  destruct (pop true st) as [e st']. cbn [fst snd] in *. subst e. injection H as <-. cbn [m_tbl set_ip memoize set_tbl tree_table t_put]. rewrite Tp, Mp.
  apply put_answered; [exact P|lia|lia|]. intro E. injection E as E. lia.
Qed.

Lemma p_skips : forall st st1 i l id, answered (m_tbl st) id (mpos st) -> decode code (m_ip st) = Some i -> i = IMemoOpen l id \/ i = IMemoTreeOpen l id ->
  step st = Next st1 -> m_ip st1 = l \/ List.length (m_stk st1) < List.length (m_stk st).
Proof.
  intros st st1 i l id A D Hi H. unfold vm_step in H. rewrite D in H. unfold answered in A.
  destruct Hi as [-> | ->]; cbn [exec_d tree_table t_get] in H; destruct (tt_get (m_tbl st) id (mpos st)) as [[[[len|] cnt cs]|] tbl]; cbn [fst] in A; try (elim A; reflexivity).
  - injection H as <-. left. reflexivity.
  - right. apply fail_len in H. exact H.
  - injection H as <-. left. reflexivity.
  - right. apply fail_len in H. exact H.
Qed.
End Run.

Lemma unedited_plain : forall t, unedited threshold t -> plain t.
Proof.
  intros t H. induction H as [|bufsz CS check code s cs n t H IH]; [exact plain_new|]. apply (knows_after bufsz CS check code n). exact IH.
Qed.
End Table.
