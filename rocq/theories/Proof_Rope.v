(** Ropes: contents. *)
From Coq Require Import ZArith.
From Verif Require Import Base Model_Rope Spec_Rope.
Local Open Scope nat_scope.

Lemma slc_some : forall s a b, a <= b <= List.length s -> slc s a b = Some (firstn (b - a) (skipn a s)).
Proof. intros s a b H. unfold slc. rewrite (proj2 (Nat.leb_le _ _)), (proj2 (Nat.leb_le _ _)) by lia. reflexivity. Qed.
Lemma slc_pre : forall s i, i <= List.length s -> slc s 0 i = Some (firstn i s).
Proof. intros s i H. rewrite slc_some by lia. rewrite Nat.sub_0_r. reflexivity. Qed.
Lemma slc_post : forall s i, i <= List.length s -> slc s i (List.length s) = Some (skipn i s).
Proof. intros s i H. rewrite slc_some by lia. rewrite firstn_all2; [reflexivity|]. rewrite skipn_length. lia. Qed.

Section Wf.
Variable P : opts -> Prop.
Hypothesis HP : forall o, P o -> splits o.

Fixpoint wfr (r : rope) (b : list byte) : Prop :=
  match r with
  | RLeaf o v n ll => P o /\ v = b /\ n = List.length b /\ ll = llen b (o_sep o)
  | RNode o l r n ll => (P o /\ (o_joinlen o <= S (o_split o) -> o_joinlen o <= n)) /\ n = List.length b /\ ll = addlocs (rp_llen l) (rp_llen r) /\ exists x y, b = x ++ y /\ wfr l x /\ wfr r y
  | RNil _ _ _ _ => False
  end.
(** a node before it is adjusted *)
Definition pre (r : rope) (b : list byte) : Prop :=
  match r with
  | RNode o l r n ll => P o /\ n = List.length b /\ ll = addlocs (rp_llen l) (rp_llen r) /\ exists x y, b = x ++ y /\ wfr l x /\ wfr r y
  | _ => wfr r b
  end.
Lemma wfr_opts : forall r b, wfr r b -> P (rp_opts r).
Proof. intros [o v n ll|o l r n ll|o v n ll] b H; cbn in *; tauto. Qed.
Lemma wfr_len : forall r b, wfr r b -> rp_len r = List.length b.
Proof. intros [o v n ll|o l r n ll|o v n ll] b H; cbn in *; tauto. Qed.
Lemma wfr_value : forall r b, wfr r b -> rp_value r = Some b.
Proof.
  induction r as [o v n ll|o l IHl r IHr n ll|o v n ll]; intros b H; cbn in H.
  - destruct H as (_ & -> & _). reflexivity.
  - destruct H as (_ & _ & _ & x & y & -> & Hl & Hr). cbn. rewrite (IHl _ Hl), (IHr _ Hr). reflexivity.
  - destruct H.
Qed.
Lemma wfr_leaf : forall o b, P o -> wfr (new_leaf o b) b.
Proof. intros. cbn. auto. Qed.
Lemma wfr_node : forall o l r x y, P o -> wfr l x -> wfr r y -> pre (RNode o l r (rp_len l + rp_len r) (addlocs (rp_llen l) (rp_llen r))) (x ++ y).
Proof.
  intros o l r x y Ho Hl Hr. cbn. split; [exact Ho|]. rewrite (wfr_len _ _ Hl), (wfr_len _ _ Hr), app_length.
  split; [reflexivity|]. split; [reflexivity|]. eauto.
Qed.
Lemma pre_value : forall r b, pre r b -> rp_value r = Some b.
Proof.
  intros [o v n ll|o l r n ll|o v n ll] b H; [exact (wfr_value (RLeaf o v n ll) b H)| |destruct H].
  destruct H as (_ & _ & _ & x & y & -> & Hl & Hr). cbn. rewrite (wfr_value _ _ Hl), (wfr_value _ _ Hr). reflexivity.
Qed.
Lemma pre_opts : forall r b, pre r b -> P (rp_opts r).
Proof. intros [o v n ll|o l r n ll|o v n ll] b H; cbn in *; tauto. Qed.
Lemma pre_wfr : forall r b, pre r b -> (o_joinlen (rp_opts r) <= S (o_split (rp_opts r)) -> o_joinlen (rp_opts r) <= rp_len r) -> wfr r b.
Proof. intros [o v n ll|o l r n ll|o v n ll] b H B; cbn in *; tauto. Qed.
Lemma adjust_node_wf : forall r b, pre r b -> exists r', adjust_node r = Some r' /\ wfr r' b.
Proof.
  intros r b H. unfold adjust_node. destruct (Nat.ltb_spec (rp_len r) (o_joinlen (rp_opts r))) as [G|G].
  - rewrite (pre_value _ _ H). cbn [obind]. eexists. split; [reflexivity|]. apply wfr_leaf. eapply pre_opts. exact H.
  - exists r. split; [reflexivity|]. apply pre_wfr; [exact H|intros _; exact G].
Qed.
Lemma join_wf : forall l r x y, wfr l x -> wfr r y -> exists n, rp_join l r = Some n /\ wfr n (x ++ y).
Proof. intros l r x y Hl Hr. apply adjust_node_wf. apply wfr_node; [eapply wfr_opts; exact Hl|assumption|assumption]. Qed.

Lemma join_last_wf : forall k nodes bs, List.length nodes = k -> 2 <= k -> Forall2 wfr nodes bs ->
  exists ns cs, join_last nodes = Some ns /\ Forall2 wfr ns cs /\ concat cs = concat bs /\ S (List.length ns) = k.
Proof.
  induction k as [|k IH]; intros nodes bs L G H; [lia|]. destruct H as [|a x nodes bs Ha H]; [discriminate|].
  destruct H as [|b y nodes bs Hb H]; [cbn in L; lia|]. destruct H as [|c z nodes bs Hc H].
  - destruct (join_wf _ _ _ _ Ha Hb) as (n & E & Hn). exists [n], [x ++ y]. cbn [join_last]. rewrite E. cbn in L. split; [reflexivity|].
    split; [repeat constructor; exact Hn|]. split; [cbn; rewrite !app_nil_r; reflexivity|cbn; lia].
  - destruct (IH (b :: c :: nodes) (y :: z :: bs)) as (ns & cs & E & Hn & Hc' & Hl); [cbn in *; lia|cbn in L; lia|constructor; [exact Hb|constructor; assumption]|].
    exists (a :: ns), (x :: cs). split; [|split; [constructor; assumption|split; [cbn; rewrite Hc'; reflexivity|cbn in *; lia]]].
    change (join_last (a :: b :: c :: nodes)) with (obind (join_last (b :: c :: nodes)) (fun ns => Some (a :: ns))). rewrite E. reflexivity.
Qed.
Lemma join_pairs_wf : forall k nodes bs, List.length nodes = k + k -> Forall2 wfr nodes bs ->
  exists ns cs, join_pairs nodes = Some ns /\ Forall2 wfr ns cs /\ concat cs = concat bs /\ List.length ns = k.
Proof.
  induction k as [|k IH]; intros nodes bs L H.
  - destruct H; [|discriminate]. exists [], []. auto.
  - destruct H as [|a x nodes bs Ha H]; [discriminate|]. destruct H as [|b y nodes bs Hb H]; [cbn in L; lia|].
    destruct (IH nodes bs) as (ns & cs & E & Hn & Hc & Hl); [cbn in L; lia|exact H|].
    destruct (join_wf _ _ _ _ Ha Hb) as (n & En & Hn'). exists (n :: ns), ((x ++ y) :: cs). cbn [join_pairs]. rewrite En, E. cbn [obind].
    split; [reflexivity|]. split; [constructor; assumption|]. split; [cbn; rewrite Hc, app_assoc; reflexivity|cbn; lia].
Qed.
Lemma build_tree_wf : forall fuel nodes bs, 1 <= List.length nodes <= fuel -> Forall2 wfr nodes bs ->
  exists r, build_tree fuel nodes = Some r /\ wfr r (concat bs).
Proof.
  induction fuel as [|fuel IH]; intros nodes bs L H; [lia|]. destruct H as [|a x nodes bs Ha H]; [cbn in L; lia|].
  destruct H as [|b y nodes bs Hb H].
  - exists a. split; [reflexivity|]. cbn. rewrite app_nil_r. exact Ha.
  - set (N := a :: b :: nodes) in *. set (B := x :: y :: bs). assert (HN : Forall2 wfr N B) by (constructor; [exact Ha|constructor; assumption]).
    assert (S1 : exists ns cs, (if Nat.odd (List.length N) then join_last N else Some N) = Some ns /\ Forall2 wfr ns cs /\ concat cs = concat B /\ exists k, List.length ns = k + k /\ 1 <= k /\ k + k <= List.length N).
    { destruct (Nat.odd (List.length N)) eqn:Eo.
      - destruct (join_last_wf _ N B eq_refl ltac:(cbn; lia) HN) as (ns & cs & E & Hn & Hc & Hl). exists ns, cs. split; [exact E|]. split; [exact Hn|]. split; [exact Hc|].
        apply Nat.odd_spec in Eo. destruct Eo as [m Em]. exists m. cbn in *; lia.
      - exists N, B. split; [reflexivity|]. split; [exact HN|]. split; [reflexivity|]. rewrite <- Nat.negb_even in Eo. apply negb_false_iff in Eo. apply Nat.even_spec in Eo.
        destruct Eo as [m Em]. exists m. cbn in *; lia. }
    destruct S1 as (ns & cs & E & Hn & Hc & k & Hk & K1 & K2). destruct (join_pairs_wf k ns cs Hk Hn) as (ms & ds & E2 & Hm & Hd & Hl).
    assert (Q : build_tree (S fuel) N = obind (if Nat.odd (List.length N) then join_last N else Some N) (fun nodes => obind (join_pairs nodes) (build_tree fuel))) by reflexivity.
    rewrite Q, E. cbn [obind]. rewrite E2. cbn [obind]. rewrite <- Hc, <- Hd. apply IH; [|exact Hm]. lia.
Qed.
Lemma skipn_add : forall A (a b : nat) (l : list A), skipn (a + b) l = skipn b (skipn a l).
Proof. intros A a b. induction a as [|a IH]; intros [|x l]; try reflexivity; [destruct b; reflexivity|]. cbn. apply IH. Qed.
Lemma chunks_concat : forall n sz b, concat (chunks n sz b) ++ skipn (n * sz) b = b.
Proof.
  induction n as [|n IH]; intros sz b; [reflexivity|]. cbn [chunks concat Nat.mul]. rewrite <- app_assoc, skipn_add, IH. apply firstn_skipn.
Qed.
Lemma new_wf : forall o b, P o -> exists r, rp_new o b = Some r /\ wfr r b.
Proof.
  intros o b Ho. unfold rp_new. pose proof (HP _ Ho) as Hs. unfold splits in Hs. destruct (o_split o) as [|k]; [lia|]. set (sz := S k). cbv zeta.
  set (L := chunks (List.length b / sz) sz b ++ [skipn (List.length b / sz * sz) b]).
  assert (HL : concat L = b) by (unfold L; rewrite concat_app; cbn [concat]; rewrite app_nil_r; apply chunks_concat).
  assert (HF : Forall2 wfr (map (new_leaf o) L) L).
  { clear HL. induction L as [|x l IH]; cbn [map]; constructor; [apply wfr_leaf; exact Ho|exact IH]. }
  destruct (build_tree_wf (List.length (map (new_leaf o) L)) (map (new_leaf o) L) L ltac:(rewrite map_length; unfold L; rewrite app_length; cbn [List.length]; lia) HF) as (r & E & Hr).
  exists r. split; [exact E|]. rewrite HL in Hr. exact Hr.
Qed.
Lemma adjust_wf : forall r b, pre r b -> exists r', rp_adjust r = Some r' /\ wfr r' b.
Proof.
  intros [o v n ll|o l r n ll|o v n ll] b H; [|apply adjust_node_wf; exact H|destruct H].
  unfold rp_adjust. destruct (Nat.ltb_spec (o_split o) n) as [G|G]; [|eauto]. pose proof H as (Ho & -> & -> & _). cbv zeta.
  assert (D : List.length b / 2 <= List.length b) by (apply Nat.div_le_upper_bound; lia).
  rewrite slc_pre, slc_post by exact D. cbn [obind].
  destruct (new_wf o (firstn (List.length b / 2) b) Ho) as (x & Ex & Hx). destruct (new_wf o (skipn (List.length b / 2) b) Ho) as (y & Ey & Hy).
  rewrite Ex. cbn [obind]. rewrite Ey. cbn [obind]. eexists. split; [reflexivity|].
  replace b with (firstn (List.length b / 2) b ++ skipn (List.length b / 2) b) at 1 by apply firstn_skipn.
  apply pre_wfr; [apply wfr_node; assumption|]. cbn [rp_len rp_opts]. rewrite (wfr_len _ _ Hx), (wfr_len _ _ Hy), <- app_length, firstn_skipn. cbn in G. lia.
Qed.

Lemma insert_wf : forall r b pos v, wfr r b -> pos <= List.length b -> exists r', rp_insert r pos v = Some r' /\ wfr r' (firstn pos b ++ v ++ skipn pos b).
Proof.
  induction r as [o w n ll|o l IHl r IHr n ll|o w n ll]; intros b pos v H L; [| |destruct H].
  - destruct H as (Ho & -> & _ & _). cbn [rp_insert]. rewrite slc_pre, slc_post by exact L. cbn [obind]. apply adjust_wf. apply wfr_leaf. exact Ho.
  - destruct H as ((Ho & _) & _ & _ & x & y & -> & Hl & Hr). cbn [rp_insert]. rewrite (wfr_len _ _ Hl). rewrite app_length in L. destruct (Nat.ltb_spec pos (List.length x)) as [G|G].
    + destruct (IHl x pos v Hl ltac:(lia)) as (l' & E & Hl'). rewrite E. cbn [obind].
      rewrite firstn_app, skipn_app. replace (pos - List.length x) with 0 by lia. cbn [firstn skipn]. rewrite app_nil_r. replace (firstn pos x ++ v ++ skipn pos x ++ y) with ((firstn pos x ++ v ++ skipn pos x) ++ y) by (rewrite <- !app_assoc; reflexivity). apply adjust_wf. apply wfr_node; [exact Ho|exact Hl'|exact Hr].
    + destruct (IHr y (pos - List.length x) v Hr ltac:(lia)) as (r' & E & Hr'). rewrite E. cbn [obind].
      rewrite firstn_app, skipn_app, firstn_all2, skipn_all2 by lia. cbn [app]. rewrite <- app_assoc. apply adjust_wf. apply wfr_node; [exact Ho|exact Hl|exact Hr'].
Qed.
Lemma remove_wf : forall r b start en, wfr r b -> start <= en <= List.length b -> exists r', rp_remove r start en = Some r' /\ wfr r' (firstn start b ++ skipn en b).
Proof.
  induction r as [o w n ll|o l IHl r IHr n ll|o w n ll]; intros b start en H L; [| |destruct H].
  - destruct H as (Ho & -> & _ & _). cbn [rp_remove]. rewrite slc_pre, slc_post by lia. cbn [obind]. rewrite (proj2 (Nat.leb_le _ _)) by lia. apply adjust_wf. apply wfr_leaf. exact Ho.
  - destruct H as ((Ho & _) & _ & _ & x & y & -> & Hl & Hr). cbn [rp_remove]. cbv zeta. rewrite (wfr_len _ _ Hl), (wfr_len _ _ Hr). rewrite app_length in L.
    assert (A : exists l', (if Nat.min start (List.length x) <? List.length x then rp_remove l (Nat.min start (List.length x)) (Nat.min en (List.length x)) else Some l) = Some l' /\ wfr l' (firstn start x ++ skipn en x)).
    { destruct (Nat.ltb_spec (Nat.min start (List.length x)) (List.length x)) as [G|G].
      - destruct (IHl x (Nat.min start (List.length x)) (Nat.min en (List.length x)) Hl ltac:(lia)) as (l' & E & Hl'). exists l'. split; [exact E|].
        replace (firstn start x) with (firstn (Nat.min start (List.length x)) x) by (f_equal; lia).
        destruct (Nat.le_gt_cases en (List.length x)) as [K|K]; [rewrite (Nat.min_l en) in Hl' by lia; exact Hl'|].
        rewrite (Nat.min_r en) in Hl' by lia. rewrite skipn_all2 by lia. rewrite skipn_all2 in Hl' by lia. exact Hl'.
      - exists l. split; [reflexivity|]. rewrite firstn_all2, skipn_all2, app_nil_r by lia. exact Hl. }
    assert (B : exists r', (if 0 <? Nat.min (en - List.length x) (List.length y) then rp_remove r (Nat.min (start - List.length x) (List.length y)) (Nat.min (en - List.length x) (List.length y)) else Some r) = Some r' /\
      wfr r' (firstn (start - List.length x) y ++ skipn (en - List.length x) y)).
    { destruct (Nat.ltb_spec 0 (Nat.min (en - List.length x) (List.length y))) as [G|G].
      - rewrite !Nat.min_l by lia. apply (IHr y); [exact Hr|lia].
      - exists r. split; [reflexivity|]. assert (en - List.length x = 0) as -> by lia. assert (start - List.length x = 0) as -> by lia. exact Hr. }
    destruct A as (l' & -> & Hl'). destruct B as (r' & -> & Hr'). cbn [obind]. rewrite firstn_app, skipn_app.
    assert (Q : (firstn start x ++ firstn (start - List.length x) y) ++ skipn en x ++ skipn (en - List.length x) y =
      (firstn start x ++ skipn en x) ++ firstn (start - List.length x) y ++ skipn (en - List.length x) y).
    { destruct (Nat.le_gt_cases start (List.length x)) as [K|K].
      - replace (start - List.length x) with 0 by lia. cbn [firstn]. rewrite app_nil_r, app_assoc. reflexivity.
      - rewrite (skipn_all2 x) by lia. cbn [app]. rewrite app_nil_r, <- app_assoc. reflexivity. }
    rewrite Q. apply adjust_wf. apply wfr_node; assumption.
Qed.
Lemma split_wf : forall r b i, wfr r b -> i <= List.length b -> exists l x, rp_split_at r i = Some (l, x) /\ wfr l (firstn i b) /\ wfr x (skipn i b).
Proof.
  induction r as [o w n ll|o l IHl r IHr n ll|o w n ll]; intros b i H L; [| |destruct H].
  - destruct H as (Ho & -> & _ & _). cbn [rp_split_at]. rewrite slc_pre, slc_post by exact L. cbn [obind].
    destruct (new_wf o (firstn i b) Ho) as (x & Ex & Hx). destruct (new_wf o (skipn i b) Ho) as (y & Ey & Hy). rewrite Ex. cbn [obind]. rewrite Ey. cbn [obind]. eauto.
  - destruct H as ((Ho & _) & _ & _ & x & y & -> & Hl & Hr). cbn [rp_split_at]. cbv zeta. rewrite (wfr_len _ _ Hl). rewrite app_length in L. rewrite firstn_app, skipn_app.
    destruct (Nat.eqb_spec i (List.length x)) as [G|G].
    + exists l, r. split; [reflexivity|]. replace (i - List.length x) with 0 by lia. rewrite firstn_all2, skipn_all2 by lia. cbn [firstn skipn app]. rewrite app_nil_r. auto.
    + destruct (Nat.ltb_spec i (List.length x)) as [K|K].
      * destruct (IHl x i Hl ltac:(lia)) as (a & c & E & Ha & Hc). rewrite E. cbn [obind]. destruct (join_wf _ _ _ _ Hc Hr) as (j & Ej & Hj). rewrite Ej. cbn [obind].
        exists a, j. split; [reflexivity|]. replace (i - List.length x) with 0 by lia. cbn [firstn skipn]. rewrite app_nil_r. auto.
      * destruct (IHr y (i - List.length x) Hr ltac:(lia)) as (a & c & E & Ha & Hc). rewrite E. cbn [obind]. destruct (join_wf _ _ _ _ Hl Ha) as (j & Ej & Hj). rewrite Ej. cbn [obind].
        exists j, c. split; [reflexivity|]. rewrite firstn_all2, skipn_all2 by lia. auto.
Qed.
Lemma join_all_wf : forall more us s x, wfr s x -> Forall2 wfr more us ->
  exists r, fold_left (fun s n => obind s (fun s => rp_join s n)) more (Some s) = Some r /\ wfr r (x ++ concat us).
Proof.
  intros more us s x Hs H. revert s x Hs. induction H as [|n u more us Hn H IH]; intros s x Hs.
  - exists s. cbn. rewrite app_nil_r. auto.
  - cbn [fold_left obind concat]. destruct (join_wf _ _ _ _ Hs Hn) as (j & E & Hj). rewrite E. destruct (IH j (x ++ u) Hj) as (r & Er & Hr). exists r. split; [exact Er|].
    rewrite app_assoc. exact Hr.
Qed.
Lemma join_all_wf' : forall a b more s t us, wfr a s -> wfr b t -> Forall2 wfr more us -> exists r, rp_join_all a b more = Some r /\ wfr r (s ++ t ++ concat us).
Proof.
  intros a b more s t us Ha Hb H. unfold rp_join_all. destruct (join_wf _ _ _ _ Ha Hb) as (j & E & Hj). rewrite E. rewrite app_assoc. apply join_all_wf; assumption.
Qed.

Section MadeInd.
Variable Q : rope -> list byte -> Prop.
Hypothesis H1 : forall o b r, P o -> rp_new o b = Some r -> Q r b.
Hypothesis H2 : forall r b pos v r', Q r b -> pos <= List.length b -> rp_insert r pos v = Some r' -> Q r' (firstn pos b ++ v ++ skipn pos b).
Hypothesis H3 : forall r b start en r', Q r b -> start <= en <= List.length b -> rp_remove r start en = Some r' -> Q r' (firstn start b ++ skipn en b).
Hypothesis H4 : forall r b i l x, Q r b -> i <= List.length b -> rp_split_at r i = Some (l, x) -> Q l (firstn i b).
Hypothesis H5 : forall r b i x l, Q r b -> i <= List.length b -> rp_split_at r i = Some (x, l) -> Q l (skipn i b).
Hypothesis H6 : forall a b more s t us r, Q a s -> Q b t -> Forall2 Q more us -> rp_join_all a b more = Some r -> Q r (s ++ t ++ concat us).
Lemma made_ind' : forall r b, made P r b -> Q r b.
Proof.
  fix IH 3. intros r b [o b0 r0 A B|r0 b0 pos v r' A B C|r0 b0 st en r' A B C|r0 b0 i l x A B C|r0 b0 i x l A B C|a0 b0 more s t us r0 A B C D].
  - eapply H1; eassumption.
  - eapply H2; [apply IH; exact A|exact B|exact C].
  - eapply H3; [apply IH; exact A|exact B|exact C].
  - eapply H4; [apply IH; exact A|exact B|exact C].
  - eapply H5; [apply IH; exact A|exact B|exact C].
  - eapply H6; [apply IH; exact A|apply IH; exact B| |exact D]. clear - IH C. revert more us C. fix IHl 3. intros more us [|n u more' us' Hn C]; constructor; [apply IH; exact Hn|apply IHl; exact C].
Qed.
End MadeInd.
Lemma made_wf : forall r b, made P r b -> wfr r b.
Proof.
  apply made_ind'.
  - intros o b r Ho E. destruct (new_wf o b Ho) as (r' & E' & H). rewrite E in E'. injection E' as <-. exact H.
  - intros r b pos v r' H L E. destruct (insert_wf r b pos v H L) as (x & E' & Hx). rewrite E in E'. injection E' as <-. exact Hx.
  - intros r b st en r' H L E. destruct (remove_wf r b st en H L) as (x & E' & Hx). rewrite E in E'. injection E' as <-. exact Hx.
  - intros r b i l x H L E. destruct (split_wf r b i H L) as (l' & x' & E' & Hl & Hx). rewrite E in E'. injection E' as <- <-. exact Hl.
  - intros r b i x l H L E. destruct (split_wf r b i H L) as (l' & x' & E' & Hl & Hx). rewrite E in E'. injection E' as <- <-. exact Hx.
  - intros a b more s t us r Ha Hb H E. destruct (join_all_wf' _ _ _ _ _ _ Ha Hb H) as (x & E' & Hx). rewrite E in E'. injection E' as <-. exact Hx.
Qed.

(* ---------- reads ---------- *)
Lemma slice_wf : forall r b start en, wfr r b -> start <= en <= List.length b -> rp_slice r start en = Some (firstn (en - start) (skipn start b)).
Proof.
  induction r as [o w n ll|o l IHl r IHr n ll|o w n ll]; intros b start en H L; [| |destruct H].
  - destruct H as (Ho & -> & _ & _). cbn [rp_slice]. destruct (Nat.leb_spec en start) as [G|G]; [|apply slc_some; lia].
    replace (en - start) with 0 by lia. reflexivity.
  - destruct H as ((Ho & _) & _ & _ & x & y & -> & Hl & Hr). cbn [rp_slice]. cbv zeta. rewrite (wfr_len _ _ Hl), (wfr_len _ _ Hr). rewrite app_length in L.
    destruct (Nat.leb_spec en start) as [G|G]; [replace (en - start) with 0 by lia; reflexivity|].
    assert (Q : firstn (en - start) (skipn start (x ++ y)) = firstn (Nat.min en (List.length x) - Nat.min start (List.length x)) (skipn (Nat.min start (List.length x)) x) ++
      firstn (Nat.min (en - List.length x) (List.length y) - Nat.min (start - List.length x) (List.length y)) (skipn (Nat.min (start - List.length x) (List.length y)) y)).
    { rewrite skipn_app, firstn_app, skipn_length. f_equal.
      - destruct (Nat.le_gt_cases start (List.length x)) as [K|K].
        + rewrite (Nat.min_l start) by lia. destruct (Nat.le_gt_cases en (List.length x)) as [J|J]; [rewrite Nat.min_l by lia; reflexivity|].
          rewrite !firstn_all2; [reflexivity| |]; rewrite skipn_length; lia.
        + rewrite !skipn_all2 by lia. rewrite !firstn_nil. reflexivity.
      - rewrite (Nat.min_l (start - _)) by lia. f_equal. lia. }
    rewrite Q. destruct (Nat.eqb_spec (Nat.min start (List.length x)) (Nat.min en (List.length x))) as [E1|E1]; cbn [negb];
      destruct (Nat.eqb_spec (Nat.min (start - List.length x) (List.length y)) (Nat.min (en - List.length x) (List.length y))) as [E2|E2]; cbn [negb].
    + rewrite E1, E2, !Nat.sub_diag. reflexivity.
    + rewrite E1, Nat.sub_diag. apply IHr; [exact Hr|lia].
    + rewrite E2, Nat.sub_diag. cbn [firstn]. rewrite app_nil_r. apply IHl; [exact Hl|lia].
    + rewrite (IHl x), (IHr y) by (assumption || lia). reflexivity.
Qed.
Lemma read_at_wf : forall r b n off, wfr r b -> off <= List.length b -> rp_read_at r n off = Some (firstn n (skipn off b), List.length b <=? off + n).
Proof.
  intros r b n off H L. unfold rp_read_at. rewrite (wfr_len _ _ H). rewrite (proj2 (Nat.ltb_ge _ _)) by lia. cbv zeta.
  destruct (Nat.leb_spec (List.length b) (off + n)) as [G|G].
  - rewrite (slice_wf r b) by (assumption || lia). cbn [obind]. rewrite firstn_firstn. do 2 f_equal. rewrite !firstn_all2; [reflexivity| |]; rewrite skipn_length; lia.
  - rewrite (slice_wf r b) by (assumption || lia). cbn [obind]. rewrite firstn_firstn. do 3 f_equal. lia.
Qed.
Lemma at_wf : forall r b i, wfr r b -> i < List.length b -> rp_at r i = nth_error b i.
Proof.
  intros r b i H L. unfold rp_at. rewrite (slice_wf r b) by (assumption || lia). cbn [obind]. replace (S i - i) with 1 by lia.
  rewrite <- (firstn_skipn i b) at 2. rewrite nth_error_app2; rewrite firstn_length_le by lia; [|lia]. rewrite Nat.sub_diag.
  destruct (skipn i b); reflexivity.
Qed.
Lemma write_wf : forall r b st total e, wfr r b ->
  rp_each_leaf (fun '(st, total, err) leaf => match rp_value leaf with Some v => let '(st, n, err) := store st v in (st, total + n, err, err) | None => (st, total, err, true) end) r (st, total, e) =
    Some ((st ++ b, total + List.length b, false), false).
Proof.
  induction r as [o w n ll|o l IHl r IHr n ll|o w n ll]; intros b st total e H; [| |destruct H].
  - destruct H as (Ho & -> & _ & _). reflexivity.
  - destruct H as (Ho & _ & _ & x & y & -> & Hl & Hr). cbn [rp_each_leaf]. rewrite (IHl x) by exact Hl. cbn [obind]. rewrite (IHr y) by exact Hr.
    rewrite app_assoc, app_length, Nat.add_assoc. reflexivity.
Qed.
Lemma limited_wf : forall k r b st total e, wfr r b ->
  rp_each_leaf (fun '(st, total, err) leaf => match rp_value leaf with Some v => let '(st, n, err) := limited k st v in (st, total + n, err, err) | None => (st, total, err, true) end) r (st, total, e) =
    Some ((st ++ firstn (k - List.length st) b, total + Nat.min (k - List.length st) (List.length b), k - List.length st <? List.length b), k - List.length st <? List.length b).
Proof.
  intro k. induction r as [o w n ll|o l IHl r IHr n ll|o w n ll]; intros b st total e H; [| |destruct H].
  - destruct H as (Ho & -> & _ & _). reflexivity.
  - destruct H as (Ho & _ & _ & x & y & -> & Hl & Hr). cbn [rp_each_leaf]. rewrite (IHl x) by exact Hl. cbn [obind].
    destruct (Nat.ltb_spec (k - List.length st) (List.length x)) as [G|G].
    + rewrite app_length, firstn_app. replace (k - List.length st - List.length x) with 0 by lia. cbn [firstn]. rewrite app_nil_r.
      rewrite (proj2 (Nat.ltb_lt _ (List.length x + List.length y))) by lia. do 4 f_equal. lia.
    + rewrite (IHr y) by exact Hr. rewrite !app_length, firstn_app, (firstn_all2 x) by lia. rewrite <- app_assoc.
      replace (k - (List.length st + List.length x)) with (k - List.length st - List.length x) by lia.
      replace (k - List.length st <? List.length x + List.length y) with (k - List.length st - List.length x <? List.length y)
        by (destruct (Nat.ltb_spec (k - List.length st - List.length x) (List.length y)), (Nat.ltb_spec (k - List.length st) (List.length x + List.length y)); lia || reflexivity).
      do 4 f_equal. lia.
Qed.

(** Rebuild and Rebalance *)
Lemma small_leaf : forall r b, wfr r b -> o_joinlen (rp_opts r) <= S (o_split (rp_opts r)) -> List.length b < o_joinlen (rp_opts r) ->
  rp_rebuild r = Some r /\ rp_rebalance r = Some r.
Proof.
  intros [o v n ll|o l r n ll|o v n ll] b H J L; [split; reflexivity| |destruct H]. exfalso. destruct H as ((_ & B) & -> & _). cbn [rp_opts] in *. specialize (B J). lia.
Qed.
Lemma rebuild_breaks : forall r b, wfr r b -> rp_rebuild r = Some r \/ rp_rebuild r = None \/ exists r', rp_rebuild r = Some r' /\ rp_value r' = None.
Proof.
  intros [o v n ll|o l r n ll|o v n ll] b H; [left; reflexivity| |destruct H]. right. destruct H as (_ & _ & _ & x & y & -> & Hl & Hr).
  cbn [rp_rebuild]. rewrite (wfr_value _ _ Hl), (wfr_value _ _ Hr). cbn [obind]. unfold adjust_node. destruct (_ <? _); cbn [rp_value obind]; [left; reflexivity|right; eauto].
Qed.
Lemma balanced_same : forall r b, wfr r b -> balanced r -> rp_rebalance r = Some r.
Proof.
  induction r as [o v n ll|o l IHl r IHr n ll|o v n ll]; intros b H B; [reflexivity| |destruct H]. destruct H as (_ & _ & _ & x & y & -> & Hl & Hr).
  cbn [balanced] in B. destruct B as (B1 & B2 & Bl & Br). cbn [rp_rebalance]. rewrite (proj2 (Nat.ltb_ge _ _)), (proj2 (Nat.ltb_ge _ _)) by lia. cbn [orb].
  rewrite (IHl x), (IHr y) by assumption. reflexivity.
Qed.
End Wf.
