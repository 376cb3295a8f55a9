(** Every program the compiler emits keeps the stack discipline of Proof_Safe.v, and neither the
    removal of returns nor Optimize breaks it. *)
From Verif Require Import Base Model_Charset Model_Isa Model_Input Model_Capture Model_VM Model_Pattern Proof_Codegen Proof_Machine Proof_Emit Proof_Optimize Proof_Safe.
Local Open Scope nat_scope.

(* ---------- the shapes of emitted code ---------- *)
Definition ch (i : insn) : bool := match i with IChar _ | ISet _ | IAny _ => true | _ => false end.
Definition plain (i : insn) : bool :=
  match i with IChar _ | ISet _ | IAny _ | IEmpty _ | ISpan _ | ICaptureFull _ _ | IError _ | IEnd true | IOpenCall _ => true | _ => false end.
Definition test (i : insn) (L : nat) : Prop := match i with ITestCharNoChoice _ l | ITestSetNoChoice _ l => l = L | _ => False end.
Inductive F : program -> Prop :=
| f_nil : F []
| f_app : forall a b, F a -> F b -> F (a ++ b)
| f_plain : forall i, plain i = true -> F [i]
| f_opt : forall t L, test t L -> F [t; ILabel L]
| f_alt : forall l r L1 L2, F l -> F r -> F (IChoice L1 :: l ++ [ICommit L2; ILabel L1] ++ r ++ [ILabel L2])
| f_alt_test : forall t l r L1 L2, test t L1 -> F l -> F r -> F (t :: l ++ [IJump L2; ILabel L1] ++ r ++ [ILabel L2])
| f_star : forall c L1 L2, F c -> F ([IChoice L2; ILabel L1] ++ c ++ [IPartialCommit L1; ILabel L2])
| f_tree : forall c L1 L2 L3 L4 m, F c ->
    F ([ILabel L1; IMemoTreeOpen L3 m; IChoice L2] ++ c ++
       [ICommit L4; ILabel L4; IMemoTreeInsert; ILabel L3; IMemoTree; IJump L1; ILabel L2; IMemoTreeClose m])
| f_not : forall c L, F c -> F ([IChoice L] ++ c ++ [IFailTwice; ILabel L])
| f_and : forall c L1 L2, F c -> F ([IChoice L1] ++ c ++ [IBackCommit L2; ILabel L1; IFail; ILabel L2])
| f_cap : forall c id, F c -> F (ICaptureBegin id :: c ++ [ICaptureEnd])
| f_late : forall c b id, F c -> F ([ICaptureLate b id] ++ c ++ [ICaptureEnd])
| f_memo : forall c L id, F c -> F ([IMemoOpen L id] ++ c ++ [IMemoClose; ILabel L])
| f_check : forall c L ck id flag, F c -> F ([ICheckBegin id flag] ++ c ++ [ICheckEnd ck; ILabel L])
| f_grammar : forall start L bs code, (forall b, In b bs -> F (b_code b)) ->
    resolved (blk_lbls bs) ([IOpenCall start; IJump L] ++ List.concat (map blk bs)) code -> F (code ++ [ILabel L]).

Lemma f_tl : forall d, F d -> forall h c, d = h :: c -> ch h = true -> F c.
Proof.
  induction 1; intros h d E Hh; try (injection E as <- E; discriminate Hh); try discriminate E.
  - destruct a as [|x a]; [exact (IHF2 _ _ E Hh)|]. injection E as -> <-. apply f_app; [eapply IHF1; [reflexivity|exact Hh]|assumption].
  - injection E as <- <-. apply f_nil.
  - injection E as <- <-. destruct t; contradiction || discriminate.
  - injection E as <- <-. destruct t; contradiction || discriminate.
  - destruct H1 as [_ H1]. specialize (H1 0). cbn in H1. destruct H1 as (l & _ & H1). destruct code as [|x code]; [destruct H1 as [H1|[H1 _]]; discriminate|].
    injection E as -> E. destruct H1 as [H1|[H1 _]]; injection H1 as ->; discriminate.
Qed.
Lemma f_skip : forall a b, forallb ch a = true -> F (a ++ b) -> F b.
Proof.
  induction a as [|x a IH]; intros b H HF; [exact HF|]. cbn [forallb] in H. apply andb_true_iff in H. destruct H as [H1 H2].
  apply IH; [exact H2|]. eapply f_tl; [exact HF|reflexivity|exact H1].
Qed.

(* ---------- safety for a number of steps ---------- *)
Fixpoint nt (g : astack) : Prop :=
  match g with
  | [] => True
  | ABt _ :: _ => True
  | ATree _ :: _ => False
  | _ :: g => nt g
  end.
Lemma nt_fl : forall g k k' Q, nt g -> fl k g Q -> fl k' g Q.
Proof. induction g as [|[] g IH]; intros k k' Q H; cbn [fl nt] in *; auto; try contradiction; apply IH; exact H. Qed.
Lemma nt_drop : forall g m, nt g -> drop_trees m g = g.
Proof. intros [|[] g] m H; try reflexivity. destruct H. Qed.
Lemma nt_merged : forall g h, nt g -> forall m j, merged (repeat (ATree m) (S j) ++ g) h -> exists i, h = repeat (ATree m) (S i) ++ g.
Proof.
  intros g h Hg m j. induction j as [|j IH]; intro H.
  - inversion H; subst; [exists 0; reflexivity|]. destruct Hg.
  - inversion H; subst; [exists (S j); reflexivity|]. apply IH. assumption.
Qed.

Section Code.
Variable P : program.
Hypothesis Pnd : NoDup (labels P).
Notation A k i := (nth_error P k = Some i).
Notation lb := (lbl_index P).
Lemma lb_at : forall k l, A k (ILabel l) -> lb l = k.
Proof. intros. apply lbl_index_at; assumption. Qed.

Fixpoint nlab (q : program) : nat := match q with ILabel _ :: q => S (nlab q) | _ => 0 end.
Definition sk (k : nat) : nat := k + nlab (skipn k P).
Lemma skipn_at : forall k i, A k i -> skipn k P = i :: skipn (S k) P.
Proof. clear. induction P as [|x q IH]; intros [|k] i H; try discriminate; [injection H as ->; reflexivity|]. exact (IH k i H). Qed.
Lemma sk_lbl : forall k l, A k (ILabel l) -> sk k = sk (S k).
Proof. intros k l H. unfold sk. rewrite (skipn_at _ _ H). cbn [nlab]. lia. Qed.
Lemma sk_not : forall k i, A k i -> (forall l, i <> ILabel l) -> sk k = k.
Proof. intros k i H Hi. unfold sk. rewrite (skipn_at _ _ H). destruct i; cbn [nlab]; try lia. destruct (Hi l eq_refl). Qed.
Fixpoint sf (n k : nat) (g : astack) : Prop := match n with O => True | S n => astep P (sk k) g (sf n) end.
Lemma astep_mono : forall k g (Q R : nat -> astack -> Prop), (forall k g, Q k g -> R k g) -> astep P k g Q -> astep P k g R.
Proof.
  intros k g Q R H Hq. unfold astep in *. destruct (nth_error P k) as [i|]; [|exact Hq].
  destruct i; try (apply H; exact Hq); revert Hq; apply exec_mono; exact H.
Qed.
Lemma sf_S : forall n k g, sf (S n) k g -> sf n k g.
Proof. induction n as [|n IH]; intros k g H; [exact I|]. cbn [sf] in *. revert H. apply astep_mono. exact IH. Qed.
Lemma sf_le : forall n m k g, m <= n -> sf n k g -> sf m k g.
Proof. induction 1; intro Hs; [exact Hs|]. apply IHle. apply sf_S. exact Hs. Qed.
Lemma fl_le : forall n m k g, m <= n -> fl k g (sf n) -> fl k g (sf m).
Proof. intros n m k g H. apply fl_mono. intros k' g'. apply sf_le. exact H. Qed.
Lemma sf_lbl : forall n k l g, A k (ILabel l) -> sf n (S k) g -> sf n k g.
Proof. intros [|n] k l g H Hs; [exact I|]. cbn [sf] in *. rewrite (sk_lbl _ _ H). exact Hs. Qed.
Lemma sf_lbl' : forall n k l g, A k (ILabel l) -> sf n k g -> sf n (S k) g.
Proof. intros [|n] k l g H Hs; [exact I|]. cbn [sf] in *. rewrite <- (sk_lbl _ _ H). exact Hs. Qed.
Definition real (i : insn) : bool := match i with ILabel _ | INop => false | _ => true end.
Lemma sf_step : forall n k i g, A k i -> real i = true -> (forall m, n = S m -> exec_a (map_lbl lb i) k (S k) g (sf m)) -> sf n k g.
Proof.
  intros [|n] k i g H Hr Hs; [exact I|]. cbn [sf]. rewrite (sk_not _ _ H); [|intros l ->; discriminate]. unfold astep. rewrite H. specialize (Hs n eq_refl).
  destruct i; try exact Hs; discriminate.
Qed.
Lemma sf_un : forall n k i g, A k i -> real i = true -> sf (S n) k g -> exec_a (map_lbl lb i) k (S k) g (sf n).
Proof.
  intros n k i g H Hr Hs. cbn [sf] in Hs. rewrite (sk_not _ _ H) in Hs; [|intros l ->; discriminate]. unfold astep in Hs. rewrite H in Hs.
  destruct i; try exact Hs; discriminate.
Qed.

(** a function entered at label [l] *)
Definition callok (n l : nat) : Prop := forall m g r, m < n -> nt g -> sf m r g -> fl 0 g (sf m) -> sf m (lb l) (ARet r :: g).
Definition at1 (n k : nat) (i : insn) : Prop :=
  match i with
  | IOpenCall _ => exists l, callok n l /\ (A k (ICall l) \/ A k (IJump l) /\ tailp P (S k))
  | i => A k i
  end.
Definition mt (n a : nat) (c : program) : Prop := forall t i, nth_error c t = Some i -> at1 n (a + t) i.
Lemma mt_cons : forall n a i c, mt n a (i :: c) -> at1 n a i /\ mt n (S a) c.
Proof.
  intros n a i c H. split; [specialize (H 0 i eq_refl); rewrite Nat.add_0_r in H; exact H|].
  intros t j Hj. specialize (H (S t) j Hj). rewrite Nat.add_succ_r in H. exact H.
Qed.
Lemma mt_app : forall n a c d, mt n a (c ++ d) -> mt n a c /\ mt n (a + List.length c) d.
Proof.
  intros n a c d H. split.
  - intros t i Hi. apply H. rewrite nth_error_app1; [exact Hi|]. apply nth_error_Some. congruence.
  - intros t i Hi. rewrite <- Nat.add_assoc. apply H. rewrite nth_error_app2 by lia. replace (List.length c + t - List.length c) with t by lia. exact Hi.
Qed.
Lemma callok_le : forall n m l, m <= n -> callok n l -> callok m l.
Proof. intros n m l H Hc m' g r H'. apply Hc. lia. Qed.
Lemma mt_le : forall n m a c, m <= n -> mt n a c -> mt m a c.
Proof.
  intros n m a c H Hm t i Hi. specialize (Hm t i Hi). destruct i; try exact Hm. destruct Hm as (l & Hl & Hm). exists l. split; [eapply callok_le; eassumption|exact Hm].
Qed.

Ltac parts H := repeat match type of H with
  | mt _ _ (_ ++ _) => let H1 := fresh "M" in apply mt_app in H; destruct H as [H1 H]; parts H1
  | mt _ _ (_ :: _) => let H1 := fresh "M" in apply mt_cons in H; destruct H as [H1 H]; cbn [at1] in H1
  end.
Ltac lens e := let E := fresh "E" in
  match goal with Hs : sf _ (?a + List.length ?c) _ |- _ =>
    assert (E : a + List.length c = e) by (repeat rewrite ?app_length; cbn [List.length]; repeat rewrite ?app_length; cbn [List.length]; lia);
    rewrite E in Hs; clear E end.
Ltac norm := repeat match goal with H : _ |- _ => progress (rewrite ?Nat.add_succ_r, ?Nat.add_0_r in H) end; rewrite ?Nat.add_succ_r, ?Nat.add_0_r.
Ltac stp H := refine (sf_step _ _ _ _ H eq_refl _); let m := fresh "m" in let Hm := fresh "Hm" in intros m Hm; cbn [map_lbl exec_a].

Definition sound (c : program) : Prop := forall n a g, mt n a c -> nt g -> sf n (a + List.length c) g -> fl 0 g (sf n) -> sf n a g.

Lemma tail_ret : forall n k g, tailp P k -> sf (S n) k g -> exists r g', g = ARet r :: g' /\ sf n r g'.
Proof.
  intros n k g (v & Hv & Hr & Hl) Hs.
  assert (X : sf (S n) v g).
  { clear Hr. revert Hl. induction Hv as [|v Hv IH]; intro Hl; [exact Hs|]. destruct (Hl v) as (l & Hvl); [lia|]. eapply sf_lbl'; [exact Hvl|]. apply IH. intros z Hz. apply Hl. lia. }
  apply (sf_un _ _ _ _ Hr eq_refl) in X. cbn in X. destruct g as [|[] g]; try contradiction. eauto.
Qed.

Lemma sound_plain : forall i, plain i = true -> sound [i].
Proof.
  intros i Hi n a g M Hg He Hf. parts M. cbn [List.length] in He. rewrite Nat.add_comm in He. cbn in He.
  destruct i; try discriminate Hi; cbn [at1] in M0;
    try (stp M0; subst n; apply sf_S in He; try (split; [exact He|]; apply (nt_fl _ 0); [exact Hg|]; revert Hf; apply fl_le; lia); try exact He; try exact I; fail);
    try (stp M0; destruct fail; [left; reflexivity|discriminate Hi]).
  destruct M0 as (l & Hl & [M0|[M0 Ht]]).
  - stp M0. subst n. apply Hl; [lia|exact Hg|apply sf_S; exact He|revert Hf; apply fl_le; lia].
  - stp M0. subst n. destruct (tail_ret _ _ _ Ht He) as (r & g' & -> & Hr). apply Hl; [lia|exact Hg|exact Hr|]. revert Hf. cbn [fl]. apply fl_le. lia.
Qed.

Lemma sound_seq : forall c d, sound c -> sound d -> sound (c ++ d).
Proof.
  intros c d Hc Hd n a g M Hg He Hf. parts M. rewrite app_length, Nat.add_assoc in He. apply Hc; try assumption. apply Hd; assumption.
Qed.

Ltac nrm := repeat match goal with
  | H : nth_error P _ = _ |- _ => progress (cbn [Nat.add List.length] in H; rewrite ?Nat.add_succ_r, ?Nat.add_0_r in H)
  | H : mt _ _ _ |- _ => progress (cbn [Nat.add List.length] in H; rewrite ?Nat.add_succ_r, ?Nat.add_0_r in H)
  end.
(** one instruction, a label, or the target of a jump *)
Ltac one := match goal with
  | |- context [lbl_index P ?l] => match goal with H : nth_error P _ = Some (ILabel l) |- _ => rewrite (lb_at _ _ H) end
  | |- sf ?n ?k ?g => match goal with
      | H : nth_error P k = Some (ILabel _) |- _ => apply (sf_lbl n k _ g H)
      | H : nth_error P k = Some ?i |- _ => refine (sf_step n k i g H eq_refl _); let m := fresh "m" in let Hm := fresh "Hm" in intros m Hm; cbn [map_lbl exec_a tl]
      end
  end.
Ltac done := match goal with
  | H : sf ?n ?k ?g |- sf ?m ?k ?g => apply (sf_le n m k g); [lia|exact H]
  | H : fl _ ?g (sf ?n) |- fl _ ?g (sf ?m) => apply (nt_fl g 0); [assumption|]; apply (fl_le n m); [lia|exact H]
  end.
Ltac start M := let n := fresh "n" in let a := fresh "a" in let g := fresh "g" in
  intros n a g M Hg He Hf; parts M; nrm.

Lemma sound_opt : forall t L, test t L -> sound [t; ILabel L].
Proof.
  intros t L Ht. start M. lens (S (S a)). destruct t; try contradiction; cbn in Ht; subst l; cbn [at1] in *; one; one; (split; [one; done|one; done]).
Qed.
Lemma sound_alt : forall l r L1 L2, sound l -> sound r -> sound (IChoice L1 :: l ++ [ICommit L2; ILabel L1] ++ r ++ [ILabel L2]).
Proof.
  intros l r L1 L2 Hl Hr. start M. lens (S (S (S (S (a + List.length l + List.length r))))).
  one. one. subst n. apply Hl; [eapply mt_le; [|eassumption]; lia|exact I| |cbn [fl]].
  - cbn [Nat.add]. one. one. subst m. one. done.
  - one. apply Hr; [eapply mt_le; [|eassumption]; lia|exact Hg| |done]. cbn [Nat.add]. one. done.
Qed.
Lemma sound_alt_test : forall t l r L1 L2, test t L1 -> sound l -> sound r -> sound (t :: l ++ [IJump L2; ILabel L1] ++ r ++ [ILabel L2]).
Proof.
  intros t l r L1 L2 Ht Hl Hr. start M. lens (S (S (S (S (a + List.length l + List.length r))))).
  assert (X : forall m, m <= n -> sf m (S a) g /\ sf m (S (S (a + List.length l))) g).
  { intros m Hm. split.
    - apply Hl; [eapply mt_le; [|eassumption]; lia|exact Hg| |done]. cbn [Nat.add]. one. one. subst m. one. done.
    - one. apply Hr; [eapply mt_le; [|eassumption]; lia|exact Hg| |done]. cbn [Nat.add]. one. done. }
  destruct t; try contradiction; cbn in Ht; subst l0; cbn [at1] in *; one; one; apply X; lia.
Qed.
Lemma sound_star : forall c L1 L2, sound c -> sound ([IChoice L2; ILabel L1] ++ c ++ [IPartialCommit L1; ILabel L2]).
Proof.
  intros c L1 L2 Hc. start M. lens (S (S (S (S (a + List.length c))))).
  assert (X : forall m, m <= n -> sf m (S (S a)) (ABt (S (S (S (a + List.length c)))) :: g)).
  { induction m as [m IH] using (well_founded_induction lt_wf). intro Hm. apply Hc; [eapply mt_le; [|eassumption]; lia|exact I| |cbn [fl]].
    - cbn [Nat.add]. one. one. subst m. one. apply IH; lia.
    - one. done. }
  one. one. subst n. one. apply X. lia.
Qed.
Lemma sound_not : forall c L, sound c -> sound ([IChoice L] ++ c ++ [IFailTwice; ILabel L]).
Proof.
  intros c L Hc. start M. lens (S (S (S (a + List.length c)))).
  one. one. subst n. apply Hc; [eapply mt_le; [|eassumption]; lia|exact I| |cbn [fl]].
  - cbn [Nat.add]. one. subst m. done.
  - one. done.
Qed.
Lemma sound_and : forall c L1 L2, sound c -> sound ([IChoice L1] ++ c ++ [IBackCommit L2; ILabel L1; IFail; ILabel L2]).
Proof.
  intros c L1 L2 Hc. start M. lens (S (S (S (S (S (a + List.length c)))))).
  one. one. subst n. apply Hc; [eapply mt_le; [|eassumption]; lia|exact I| |cbn [fl]].
  - cbn [Nat.add]. one. one. subst m. one. done.
  - one. one. subst m. done.
Qed.
Lemma sound_cap : forall c i, (exists id, i = ICaptureBegin id) \/ (exists b id, i = ICaptureLate b id) -> sound c -> sound (i :: c ++ [ICaptureEnd]).
Proof.
  intros c i Hi Hc. start M. lens (S (S (a + List.length c))).
  assert (X : forall m, S m = n -> sf m (S a) (ACapt :: g)).
  { intros m Hm. apply Hc; [eapply mt_le; [|eassumption]; lia|exact Hg| |].
    - cbn [Nat.add]. one. subst m. done.
    - cbn [fl]. done. }
  destruct Hi as [(id & ->)|(b & id & ->)]; cbn [at1] in *; one; apply X; symmetry; assumption.
Qed.
Lemma sound_memo : forall c L id, sound c -> sound ([IMemoOpen L id] ++ c ++ [IMemoClose; ILabel L]).
Proof.
  intros c L id Hc. start M. lens (S (S (S (a + List.length c)))).
  one. one. subst n. split; [done|]. split; [one; done|]. apply Hc; [eapply mt_le; [|eassumption]; lia|exact Hg| |].
  - cbn [Nat.add]. one. subst m. one. done.
  - cbn [fl]. done.
Qed.
Lemma sound_check : forall c L ck id flag, sound c -> sound ([ICheckBegin id flag] ++ c ++ [ICheckEnd ck; ILabel L]).
Proof.
  intros c L ck id flag Hc. start M. lens (S (S (S (a + List.length c)))).
  one. subst n. apply Hc; [eapply mt_le; [|eassumption]; lia|exact Hg| |].
  - cbn [Nat.add]. one. subst m. split; [one; done|done].
  - cbn [fl]. done.
Qed.
Lemma sound_tree : forall c L1 L2 L3 L4 m, sound c -> sound ([ILabel L1; IMemoTreeOpen L3 m; IChoice L2] ++ c ++
       [ICommit L4; ILabel L4; IMemoTreeInsert; ILabel L3; IMemoTree; IJump L1; ILabel L2; IMemoTreeClose m]).
Proof.
  intros c L1 L2 L3 L4 m Hc. start M. remember (a + List.length c) as e eqn:Ee. lens (S (S (S (S (S (S (S (S (S (S (S e))))))))))).
  one.
  assert (X : forall i, i <= n -> forall j, sf i (S a) (repeat (ATree m) j ++ g)).
  { induction i as [i IH] using (well_founded_induction lt_wf). intros Hi j.
    (* from the label L3 *)
    assert (X3 : forall i', i' < i -> sf i' (S (S (S (S (S (S e)))))) (repeat (ATree m) (S j) ++ g)).
    { intros i' Hi'. one. one. subst i'. intros h Hh. destruct (nt_merged _ _ Hg _ _ Hh) as (j' & ->). one. one. subst m0. one. apply IH; lia. }
    assert (X2 : forall i', i' < i -> sf i' (S (S (S (S (S (S (S (S (S e))))))))) (repeat (ATree m) (S j) ++ g)).
    { intros i' Hi'. one. one. subst i'.
      assert (D : drop_trees m (repeat (ATree m) (S j) ++ g) = g).
      { clear - Hg. generalize (S j). clear j. induction n as [|j IH]; cbn [repeat app drop_trees]; [apply nt_drop; exact Hg|]. rewrite Z.eqb_refl. exact IH. }
      rewrite D. done. }
    one. one. subst i. change (ATree m :: repeat (ATree m) j ++ g) with (repeat (ATree m) (S j) ++ g).
    split; [|split].
    - destruct j as [|j]; [cbn [repeat app]; done|]. cbn [repeat app fl]. apply IH; lia.
    - apply X3. lia.
    - one. one. subst m0. apply Hc; [eapply mt_le; [|eassumption]; lia|exact I| |cbn [fl]; apply X2; lia].
      cbn [Nat.add]. rewrite <- Ee. one. one. subst m1. one. one. subst m0. cbn [repeat app]. apply (X3 m1). lia. }
  apply (X n (le_n n) 0).
Qed.

(** the functions of a grammar *)
Lemma blocks_at : forall bs k b, In b bs -> exists j, k <= j /\ forall d, nth_error (blk b) d <> None ->
  nth_error (List.concat (map blk bs)) (j - k + d) = nth_error (blk b) d.
Proof.
  induction bs as [|b0 bs IH]; intros k b Hb; [destruct Hb|]. cbn [map List.concat]. destruct Hb as [->|Hb].
  - exists k. split; [lia|]. intros d Hd. replace (k - k + d) with d by lia. apply nth_error_app1. apply nth_error_Some. exact Hd.
  - destruct (IH (k + List.length (blk b0)) b Hb) as (j & Hj & H). exists j. split; [lia|]. intros d Hd. rewrite <- (H d Hd).
    rewrite nth_error_app2 by lia. f_equal. lia.
Qed.
Lemma assoc_lbl : forall bs x l, assoc (blk_lbls bs) x = Some l -> exists b, In b bs /\ b_lbl b = l.
Proof.
  induction bs as [|b bs IH]; intros x l H; [discriminate|]. cbn [blk_lbls map assoc] in H. destruct (String.eqb (b_name b) x).
  - injection H as <-. exists b. split; [left; reflexivity|reflexivity].
  - destruct (IH _ _ H) as (b' & Hb & E). exists b'. split; [right; exact Hb|exact E].
Qed.
Lemma sound_grammar : forall start L bs code, (forall b, In b bs -> sound (b_code b)) ->
  resolved (blk_lbls bs) ([IOpenCall start; IJump L] ++ List.concat (map blk bs)) code -> sound (code ++ [ILabel L]).
Proof.
  intros start L bs code Hb Hr n a g M Hg He Hf. apply mt_app in M. destruct M as [M ML]. apply mt_cons in ML. destruct ML as [ML _]. cbn [at1] in ML.
  rewrite app_length, Nat.add_assoc in He. cbn [List.length] in He. rewrite Nat.add_1_r in He.
  assert (NO : forall x, ~ In (IOpenCall x) code) by (intro x; eapply resolved_open; exact Hr).
  assert (MC : forall t i, nth_error code t = Some i -> A (a + t) i).
  { intros t i Hi. specialize (M t i Hi). destruct i; try exact M. apply nth_error_In in Hi. destruct (NO _ Hi). }
  destruct Hr as [Hlen Hr].
  assert (TP : forall t, tailp code t -> tailp P (a + t)).
  { intros t (v & V1 & V2 & V3). exists (a + v). split; [lia|]. split; [apply MC; exact V2|]. intros z Hz. destruct (V3 (z - a)) as (l & Hl); [lia|].
    exists l. replace z with (a + (z - a)) by lia. apply MC. exact Hl. }
  assert (MB : forall m, (forall b, In b bs -> callok m (b_lbl b)) -> mt m a ([IOpenCall start; IJump L] ++ List.concat (map blk bs))).
  { intros m Hm t i Hi. specialize (Hr t). rewrite Hi in Hr. destruct i; try (apply MC; exact Hr).
    destruct Hr as (l & Hl & Hr). apply assoc_lbl in Hl. destruct Hl as (b & Hb' & <-). exists (b_lbl b). split; [apply Hm; exact Hb'|].
    destruct Hr as [Hr|[Hr Ht]]; [left; apply MC; exact Hr|right]. split; [apply MC; exact Hr|]. rewrite <- Nat.add_succ_r. apply TP. exact Ht. }
  assert (CALL : forall m b, In b bs -> callok m (b_lbl b)).
  { induction m as [|m IH]; intros b Hb' m' h r Hm Hh Hs Hfl; [lia|].
    assert (MM : mt m' a ([IOpenCall start; IJump L] ++ List.concat (map blk bs))).
    { apply MB. intros b' Hb2. eapply callok_le; [|apply IH; exact Hb2]. lia. }
    apply mt_app in MM. destruct MM as [_ MM]. destruct (blocks_at bs 0 b Hb') as (j & _ & Hj). rewrite Nat.sub_0_r in Hj.
    assert (MK : mt m' (a + 2 + j) (blk b)).
    { intros t i Hi. rewrite <- Nat.add_assoc. apply MM. rewrite Hj by congruence. exact Hi. }
    unfold blk in MK. apply mt_cons in MK. destruct MK as [K1 MK]. apply mt_app in MK. destruct MK as [MK K2]. apply mt_cons in K2. destruct K2 as [K2 _]. cbn [at1] in K1, K2.
    rewrite (lb_at _ _ K1). apply (sf_lbl _ _ _ _ K1). apply (Hb b Hb'); [exact MK|exact Hh| |exact Hfl].
    one. subst m'. apply (sf_le (S m0)); [lia|exact Hs]. }
  assert (M0 := MB n (fun b H => CALL n b H)). apply mt_app in M0. destruct M0 as [M0 _]. apply mt_cons in M0. destruct M0 as [M0 M1]. apply mt_cons in M1. destruct M1 as [M1 _]. cbn [at1] in M0, M1.
  assert (X : forall m, m <= n -> sf m (S a) g) by (intros m Hm; one; one; subst m; one; done).
  destruct M0 as (l & Hl & [M0|[M0 (v & V1 & V2 & V3)]]).
  - one. subst n. apply Hl; [lia|exact Hg|apply X; lia|]. apply (fl_le (S m)); [lia|exact Hf].
  - exfalso. destruct (Nat.eq_dec v (S a)) as [->|Hv]; [congruence|]. destruct (V3 (S a)) as (l' & Hl'); [lia|congruence].
Qed.

Theorem F_sound : forall c, F c -> sound c.
Proof.
  induction 1.
  - intros n a g _ _ He _. rewrite Nat.add_0_r in He. exact He.
  - apply sound_seq; assumption.
  - apply sound_plain; assumption.
  - apply sound_opt; assumption.
  - apply sound_alt; assumption.
  - apply sound_alt_test; assumption.
  - apply sound_star; assumption.
  - apply sound_tree; assumption.
  - apply sound_not; assumption.
  - apply sound_and; assumption.
  - apply sound_cap; [left; eauto|assumption].
  - apply sound_cap; [right; eauto|assumption].
  - apply sound_memo; assumption.
  - apply sound_check; assumption.
  - eapply sound_grammar; eassumption.
Qed.
End Code.
