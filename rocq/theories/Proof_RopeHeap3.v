(** Insert, Remove, SplitAt, SliceLC over the heap, and programs that use many ropes. *)
From Coq Require Import ZArith Lia Permutation.
From Verif Require Import Base Model_Rope Model_RopeHeap Spec_Rope Spec_RopeHeap Proof_Rope Proof_RopeHeap Proof_RopeHeap2.
Local Open Scope nat_scope.

Lemma part_left : forall U l r, own U (l ++ r) -> own (and_arrs U r) l.
Proof. intros U l r H. apply own_app in H. tauto. Qed.
Lemma keeps_rest : forall U l h h', keeps (and_arrs U l) h h' -> keeps U h h' /\ keeps (fun a => In a (arrs l)) h h'.
Proof. intros U l h h' K. split; (eapply keeps_sub; [|exact K]); unfold and_arrs; auto. Qed.

(** a node whose parts were changed *)
Lemma node_done : forall U h h1 o a b ra rb n ll r' l, keeps U h h1 -> rep h1 a ra -> rep h1 b rb -> changed U h l (leaves a ++ leaves b) ->
  rp_adjust (RNode o ra rb n ll) = Some r' -> done U h (h_adjust h1 (HNode o a b n ll)) l r'.
Proof.
  intros U h h1 o a b ra rb n ll r' l K A B C E.
  destruct (adjust_rep U h1 (HNode o a b n ll) (RNode o ra rb n ll) r') as (h2 & hr & E2 & G & R & C2); [cbn; auto|apply C|exact E|].
  exists h2, hr. split; [exact E2|]. split; [eapply keeps_trans; [exact K|now apply grows_keeps]|]. split; [exact R|]. eapply changed_trans; [apply K|exact C|exact C2].
Qed.
Lemma leaf_done : forall U h h1 o s s' r', keeps U h h1 -> valid h1 s' -> changed U h [s] [s'] ->
  rp_adjust (new_leaf o (bread h1 s')) = Some r' -> done U h (h_adjust h1 (h_leaf h1 o s')) [s] r'.
Proof.
  intros U h h1 o s s' r' K V C E. destruct (adjust_rep U h1 _ _ r' (rep_leaf h1 o s' V)) as (h2 & hr & E2 & G & R & C2); [apply C|exact E|].
  exists h2, hr. split; [exact E2|]. split; [eapply keeps_trans; [exact K|now apply grows_keeps]|]. split; [exact R|]. eapply changed_trans; [apply K|exact C|exact C2].
Qed.

Lemma insert_rep : forall hr r U h pos v r', rep h hr r -> own U (leaves hr) -> valid h v -> U (bs_arr v) -> rp_insert r pos (bread h v) = Some r' ->
  done U h (h_insert h hr pos v) (leaves hr) r'.
Proof.
  induction hr as [o s n l|o a IHa b IHb n l]; intros [o' x n' l'|o' ra rb n' l'|] U h pos v r' H O V Uv E; try (cbn in H; tauto).
  - cbn in H. destruct H as (<- & Vs & R & En & <- & <-). cbn [rp_insert] in E. cbn [h_insert leaves].
    assert (Lx : List.length x = bs_len s) by (rewrite <- R; now apply read_len).
    bind_some E x1 E1. unfold slc in E1. cbn [Nat.leb andb] in E1. destruct (pos <=? List.length x) eqn:P; [|discriminate]. apply Nat.leb_le in P.
    rewrite Nat.sub_0_r in E1. cbn [skipn] in E1. injection E1 as <-. rewrite slc_post in E by lia. cbn [obind] in E.
    destruct O as [O _]. assert (NA : open s -> bs_arr v <> bs_arr s) by (intros OP Q; destruct (O OP) as [N _]; apply N; congruence).
    destruct (insert_spec h s pos v Vs V ltac:(lia) NA) as (h1 & s1 & E1 & V1 & R1 & C). rewrite E1. cbn [obind].
    apply leaf_done.
    + destruct C as [(_ & _ & G)|(_ & K & _ & K2)]; [now apply grows_keeps|].
      destruct (Nat.eq_dec (bs_len s) (bs_cap s)) as [F|F]; [apply keeps_sub with (U := fun _ => True); [auto|apply K2; unfold open; lia]|].
      eapply keeps_sub; [|exact K]. intros y u ->. pose proof Vs as (? & ? & ?). destruct O as [N _]; [unfold open; lia|now apply N].
    + exact V1.
    + split.
      * cbn. split; [|exact Logic.I]. intros OP. destruct C as [(N & _)|(-> & _ & C & _)]; [tauto|]. destruct (O (C OP)). auto.
      * intros t [<-|[]]. destruct C as [(_ & -> & _)|(-> & _)]; cbn; auto.
    + rewrite R1, R. exact E.
  - assert (H' := H). cbn in H. destruct H as (<- & A & B & <- & <-). cbn [rp_insert] in E. cbn [h_insert leaves] in *. rewrite (rep_len _ _ _ A).
    destruct (pos <? rp_len ra).
    + bind_some E lr Elr. bind_some Elr x Ex. injection Elr as <-. cbn beta iota in E.
      destruct (IHa ra (and_arrs U (leaves b)) h pos v x A (part_left _ _ _ O) V (or_introl Uv) Ex) as (h1 & hr1 & E1 & K & R1 & C1).
      rewrite E1. cbn [obind]. destruct (keeps_rest _ _ _ _ K) as [K1 K2]. assert (B1 := rep_keeps _ _ _ _ B K2).
      rewrite (rep_len _ _ _ R1), (rep_llen _ _ _ R1), (rep_len _ _ _ B), (rep_llen _ _ _ B).
      eapply node_done; eauto. eapply changed_part; eauto. eapply rep_old; eauto.
    + bind_some E lr Elr. bind_some Elr x Ex. injection Elr as <-. cbn beta iota in E.
      destruct (IHb rb (and_arrs U (leaves a)) h _ v x B (part_left _ _ _ (own_swap _ _ _ O)) V (or_introl Uv) Ex) as (h1 & hr1 & E1 & K & R1 & C1).
      rewrite E1. cbn [obind]. destruct (keeps_rest _ _ _ _ K) as [K1 K2]. assert (A1 := rep_keeps _ _ _ _ A K2).
      rewrite (rep_len _ _ _ R1), (rep_llen _ _ _ R1), (rep_llen _ _ _ A).
      eapply node_done; eauto. apply changed_swap. eapply changed_part; eauto using own_swap. eapply rep_old; eauto.
Qed.

Lemma below_part : forall U h hr r, below U h -> rep h hr r -> below (and_arrs U (leaves hr)) h.
Proof.
  intros U h hr r B R a [u|I]; [now apply B|]. unfold arrs in I. apply in_map_iff in I. destruct I as (s & <- & S). pose proof (rep_old _ _ _ R) as F. rewrite Forall_forall in F. now apply F.
Qed.
Lemma below_keeps : forall U V h h', below U h -> keeps V h h' -> below U h'.
Proof. intros U V h h' B [L _] a u. specialize (B _ u). lia. Qed.
Lemma remove_rep : forall hr r U h start en r', rep h hr r -> own U (leaves hr) -> below U h -> rp_remove r start en = Some r' ->
  done U h (h_remove h hr start en) (leaves hr) r'.
Proof.
  induction hr as [o s n l|o a IHa b IHb n l]; intros [o' x n' l'|o' ra rb n' l'|] U h start en r' H O BU E; try (cbn in H; tauto).
  - cbn in H. destruct H as (<- & Vs & R & En & <- & <-). cbn [rp_remove] in E. cbn [h_remove leaves].
    assert (Lx : List.length x = bs_len s) by (rewrite <- R; now apply read_len).
    bind_some E x1 E1. unfold slc in E1. cbn [Nat.leb andb] in E1. destruct (start <=? List.length x) eqn:P; [|discriminate]. apply Nat.leb_le in P.
    rewrite Nat.sub_0_r in E1. cbn [skipn] in E1. injection E1 as <-. bind_some E x2 E2. unfold slc in E2. destruct (en <=? List.length x) eqn:Q; [|discriminate]. apply Nat.leb_le in Q.
    rewrite Nat.leb_refl in E2. cbn [andb] in E2. injection E2 as <-. destruct (start <=? en) eqn:W; [|discriminate]. apply Nat.leb_le in W.
    rewrite (firstn_all2 (skipn en x)) in E by (rewrite skipn_length; lia).
    destruct (remove_spec h s start en Vs ltac:(lia)) as (h1 & s1 & E1 & V1 & R1 & C). rewrite E1. cbn [obind].
    destruct O as [O _]. apply leaf_done.
    + destruct C as [(_ & G)|(_ & OP & K)]; [now apply grows_keeps|]. eapply keeps_sub; [|exact K]. intros y u ->. destruct (O OP) as [N _]. now apply N.
    + exact V1.
    + split.
      * cbn. split; [|exact Logic.I]. intros OP. destruct C as [(-> & _)|(-> & OS & _)]; [|destruct (O OS); auto]. split; [|tauto].
        intros u. apply BU in u. lia.
      * intros t [<-|[]]. destruct C as [(-> & _)|(-> & _)]; cbn; auto.
    + rewrite R1, R. exact E.
  - assert (H' := H). cbn in H. destruct H as (<- & A & B & <- & <-). cbn [rp_remove] in E. cbn [h_remove leaves] in *. rewrite (rep_len _ _ _ A), (rep_len _ _ _ B).
    cbv zeta in *. bind_some E x Ex. bind_some E y Ey.
    match type of Ex with (if ?c then _ else _) = _ => set (c1 := c) in * end. match type of Ey with (if ?c then _ else _) = _ => set (c2 := c) in * end.
    assert (X : done (and_arrs U (leaves b)) h (if c1 then h_remove h a (Nat.min start (rp_len ra)) (Nat.min en (rp_len ra)) else Some (h, a)) (leaves a) x).
    { destruct c1.
      - apply IHa with (r := ra); auto; [now apply part_left|now apply below_part with (r := rb)].
      - injection Ex as <-. exists h, a. split; [reflexivity|]. split; [apply grows_keeps, grows_refl|]. split; [exact A|]. apply changed_refl. now apply part_left. }
    destruct X as (h1 & hr1 & E1 & K1 & R1 & C1). rewrite E1. cbn [obind]. destruct (keeps_rest _ _ _ _ K1) as [K1a K1b]. assert (B1 := rep_keeps _ _ _ _ B K1b).
    assert (C1' : changed U h (leaves a ++ leaves b) (leaves hr1 ++ leaves b)) by (eapply changed_part; eauto; eapply rep_old; eauto).
    assert (Y : done (and_arrs U (leaves hr1)) h1 (if c2 then h_remove h1 b (Nat.min (start - rp_len ra) (rp_len rb)) (Nat.min (en - rp_len ra) (rp_len rb)) else Some (h1, b)) (leaves b) y).
    { assert (O2 : own (and_arrs U (leaves hr1)) (leaves b)) by (apply part_left, own_swap, C1').
      destruct c2.
      - apply IHb with (r := rb); auto. apply below_part with (r := x); auto. eapply below_keeps; eauto.
      - injection Ey as <-. exists h1, b. split; [reflexivity|]. split; [apply grows_keeps, grows_refl|]. split; [exact B1|]. now apply changed_refl. }
    destruct Y as (h2 & hr2 & E2 & K2 & R2 & C2). rewrite E2. cbn [obind]. destruct (keeps_rest _ _ _ _ K2) as [K2a K2b]. assert (A2 := rep_keeps _ _ _ _ R1 K2b).
    rewrite (rep_len _ _ _ A2), (rep_len _ _ _ R2), (rep_llen _ _ _ A2), (rep_llen _ _ _ R2).
    eapply node_done; eauto using keeps_trans. eapply changed_trans; [apply K1a|exact C1'|]. apply changed_swap. eapply changed_part; [apply own_swap, C1'| |exact C2]. eapply rep_old; eauto.
Qed.

Lemma split_rep : forall hr r U h i x y, rep h hr r -> own U (leaves hr) -> rp_split_at r i = Some (x, y) ->
  exists h' a b, h_split_at h hr i = Some (h', (a, b)) /\ grows h h' /\ rep h' a x /\ rep h' b y /\ changed U h (leaves hr) (leaves a ++ leaves b).
Proof.
  induction hr as [o s n l|o a IHa b IHb n l]; intros [o' v n' l'|o' ra rb n' l'|] U h i x y H O E; try (cbn in H; tauto).
  - cbn in H. destruct H as (<- & Vs & R & En & <- & <-). cbn [rp_split_at] in E. cbn [h_split_at leaves].
    assert (Lx : List.length v = bs_len s) by (rewrite <- R; now apply read_len).
    bind_some E x1 E1. unfold slc in E1. cbn [Nat.leb andb] in E1. destruct (i <=? List.length v) eqn:P; [|discriminate]. apply Nat.leb_le in P.
    rewrite Nat.sub_0_r in E1. cbn [skipn] in E1. injection E1 as <-. rewrite slc_post in E by lia. cbn [obind] in E. bind_some E p Ex. bind_some E q Ey. injection E as <- <-.
    pose proof Vs as (VA & VB & VC).
    rewrite (cut_some s 0) by lia. cbn [obind]. rewrite (cut_some s i) by lia. cbn [obind].
    destruct (cut_read h s 0 i _ Vs ltac:(lia) (cut_some s 0 i ltac:(lia))) as (V1 & R1 & A1 & _).
    destruct (cut_read h s i (bs_len s) _ Vs ltac:(lia) (cut_some s i (bs_len s) ltac:(lia))) as (V2 & R2 & A2 & _).
    set (s1 := BS (bs_arr s) (bs_off s + 0) (i - 0) (bs_cap s - 0)) in *. set (s2 := BS (bs_arr s) (bs_off s + i) (bs_len s - i) (bs_cap s - i)) in *.
    cbn [skipn] in R1. rewrite Nat.sub_0_r, R in R1. rewrite R, firstn_all2 in R2 by (rewrite skipn_length; lia). rewrite <- R1 in Ex. rewrite <- R2 in Ey.
    destruct (new_rep h o s1 p V1 Ex) as (h1 & hr1 & E1 & G1 & P1 & F1). rewrite E1. cbn [obind].
    rewrite <- (grows_read h h1 s2 V2 G1) in Ey.
    destruct (new_rep h1 o s2 q (grows_valid _ _ _ V2 G1) Ey) as (h2 & hr2 & E2 & G2 & P2 & F2). rewrite E2. cbn [obind].
    eexists _, _, _. split; [reflexivity|]. split; [eauto using grows_trans|]. split; [eapply rep_grows; eauto|]. split; [exact P2|].
    assert (FF : Forall (fun t => ~ open t /\ (bs_arr t = bs_arr s \/ List.length h <= bs_arr t)) (leaves hr1 ++ leaves hr2)).
    { apply Forall_app. split; [eapply Forall_impl; [|exact F1]|eapply Forall_impl; [|exact F2]]; cbn beta; intros t [T1 T2]; (split; [exact T1|]).
      - rewrite A1 in T2. exact T2.
      - rewrite A2 in T2. pose proof (grows_len _ _ G1). destruct T2; [auto|right; lia]. }
    split; [apply own_closed; eapply Forall_impl; [|exact FF]; cbn beta; tauto|]. intros t T. rewrite Forall_forall in FF. destruct (FF _ T) as [_ [X|X]]; [left; cbn; auto|auto].
  - cbn in H. destruct H as (<- & A & B & <- & <-). cbn [rp_split_at] in E. cbn [h_split_at leaves] in *. rewrite (rep_len _ _ _ A). cbv zeta in *.
    destruct (i =? rp_len ra).
    + injection E as <- <-. eexists _, _, _. split; [reflexivity|]. split; [apply grows_refl|]. split; [exact A|]. split; [exact B|]. now apply changed_refl.
    + destruct (i <? rp_len ra).
      * bind_some E xy Exy. destruct xy as [p q]. bind_some E q' Eqq. injection E as <- <-.
        destruct (IHa ra (and_arrs U (leaves b)) h i p q A (part_left _ _ _ O) Exy) as (h1 & a1 & a2 & E1 & G1 & P1 & P2 & C1). rewrite E1. cbn [obind].
        assert (B1 := rep_grows _ _ _ _ B G1).
        destruct (join_rep _ _ _ _ _ _ P2 B1 Eqq) as (h2 & hr & E2 & G2 & R2 & M2). rewrite E2. cbn [obind].
        eexists _, _, _. split; [reflexivity|]. split; [eauto using grows_trans|]. split; [eapply rep_grows; eauto|]. split; [exact R2|].
        assert (C2 : changed U h (leaves a ++ leaves b) ((leaves a1 ++ leaves a2) ++ leaves b)) by (eapply changed_part; eauto; eapply rep_old; eauto).
        eapply changed_from; [apply grows_len, G1|exact C2| |].
        -- apply Forall_app. split; [apply Forall_app; split|]; eapply rep_old; eauto.
        -- rewrite <- app_assoc. apply from_app; [apply from_refl|exact M2].
      * bind_some E xy Exy. destruct xy as [p q]. bind_some E q' Eqq. injection E as <- <-.
        destruct (IHb rb (and_arrs U (leaves a)) h (i - rp_len ra) p q B (part_left _ _ _ (own_swap _ _ _ O)) Exy) as (h1 & a1 & a2 & E1 & G1 & P1 & P2 & C1). rewrite E1. cbn [obind].
        assert (A1 := rep_grows _ _ _ _ A G1).
        destruct (join_rep _ _ _ _ _ _ A1 P1 Eqq) as (h2 & hr & E2 & G2 & R2 & M2). rewrite E2. cbn [obind].
        eexists _, _, _. split; [reflexivity|]. split; [eauto using grows_trans|]. split; [exact R2|]. split; [eapply rep_grows; eauto|].
        assert (C2 : changed U h (leaves a ++ leaves b) (leaves a ++ (leaves a1 ++ leaves a2))).
        { apply changed_swap. eapply changed_part; [apply own_swap, O| |exact C1]. eapply rep_old; eauto. }
        eapply changed_from; [apply grows_len, G1|exact C2| |].
        -- apply Forall_app. split; [|apply Forall_app; split]; eapply rep_old; eauto.
        -- rewrite app_assoc. apply from_app; [exact M2|apply from_refl].
Qed.

(** ** SliceLC *)
Lemma make0 : forall h, exists h' s, bmake h 0 0 = Some (h', s) /\ grows h h' /\ valid h' s /\ bread h' s = [] /\ List.length h <= bs_arr s.
Proof.
  intros h. unfold bmake. cbn. eexists _, _. split; [reflexivity|]. split; [apply grows_one|]. split; [|split; [reflexivity|cbn; lia]]. unfold valid. cbn. rewrite app_length. cbn. lia.
Qed.
Lemma concat_ok : forall h a b, valid h a -> valid h b -> exists h' s, hs_concat h a b = Some (h', s) /\ grows h h' /\ valid h' s /\ bread h' s = bread h a ++ bread h b /\ List.length h <= bs_arr s.
Proof.
  intros h a b Va Vb. rewrite (concat_spec h a b Va Vb). pose proof (read_len h a Va). pose proof (read_len h b Vb). eexists _, _. split; [reflexivity|]. split; [apply grows_one|]. split; [|split].
  - unfold valid. cbn [bs_arr bs_off bs_len bs_cap]. rewrite barr_new, !app_length. cbn. lia.
  - pose proof (read_mid (h ++ [bread h a ++ bread h b]) (List.length h) [] (bread h a ++ bread h b) [] (bs_len a + bs_len b) (bs_len a + bs_len b)) as R. cbn [List.length app] in R.
    apply R; [rewrite barr_new, app_nil_r; reflexivity|]. rewrite app_length. lia.
  - cbn. lia.
Qed.
(** the result is a part of a leaf, or has a new array *)
Lemma slice_lc_rep : forall hr r h p q v, rep h hr r -> rp_slice_lc r p q = Some v ->
  exists h' s, h_slice_lc h hr p q = Some (h', s) /\ grows h h' /\ valid h' s /\ bread h' s = v /\ (In (bs_arr s) (arrs (leaves hr)) \/ List.length h <= bs_arr s).
Proof.
  assert (M0 : forall h (l : list bslice), exists h' s, bmake h 0 0 = Some (h', s) /\ grows h h' /\ valid h' s /\ bread h' s = [] /\ (In (bs_arr s) (arrs l) \/ List.length h <= bs_arr s)).
  { intros h l. destruct (make0 h) as (h' & s & A & B & C & D & E). exists h', s. intuition auto. }
  assert (IN1 : forall l1 l2 a, In a (arrs l1) -> In a (arrs (l1 ++ l2))) by (intros; unfold arrs in *; rewrite map_app; apply in_or_app; auto).
  assert (IN2 : forall l1 l2 a, In a (arrs l2) -> In a (arrs (l1 ++ l2))) by (intros; unfold arrs in *; rewrite map_app; apply in_or_app; auto).
  induction hr as [o s n l|o a IHa b IHb n l]; intros [o' x n' l'|o' ra rb n' l'|] h p q v H E; try (cbn in H; tauto).
  - cbn in H. destruct H as (<- & V & R & En & <- & <-). cbn [rp_slice_lc] in E. cbn [h_slice_lc leaves]. destruct (lcmp p q); try (injection E as <-; apply M0).
    unfold sliceloc in E. unfold h_sliceloc. rewrite R. cbv zeta in *. destruct (_ || _); [discriminate|]. cbn [obind].
    match type of E with slc _ ?a ?b = _ => generalize dependent b; generalize dependent a end. intros i j E. unfold slc in E. destruct ((i <=? j) && (j <=? List.length x)) eqn:C; [|discriminate]. injection E as <-.
    apply andb_prop in C. destruct C as [C1 C2]. apply Nat.leb_le in C1, C2. assert (Lx : List.length x = bs_len s) by (rewrite <- R; now apply read_len). pose proof V as (? & ? & ?).
    assert (Ec := cut_some s i j ltac:(lia)). destruct (cut_read h s i j _ V ltac:(lia) Ec) as (V1 & R1 & A1 & _). rewrite Ec. cbn [obind].
    eexists _, _. split; [reflexivity|]. split; [apply grows_refl|]. split; [exact V1|]. split; [now rewrite R1, R|]. left. cbn. auto.
  - cbn in H. destruct H as (<- & A & B & <- & <-). cbn [rp_slice_lc] in E. cbn [h_slice_lc leaves]. destruct (lcmp p q); try (injection E as <-; apply M0).
    rewrite (rep_llen _ _ _ A), (rep_llen _ _ _ B). cbv zeta in *. destruct (negb (loc_eqb (minloc p (rp_llen ra)) (minloc q (rp_llen ra)))).
    + destruct (negb (loc_eqb (maxloc lzero (minloc (sublocs p (rp_llen ra)) (rp_llen rb))) (maxloc lzero (minloc (sublocs q (rp_llen ra)) (rp_llen rb))))).
      * bind_some E x Ex. bind_some E y Ey. injection E as <-.
        destruct (IHa _ _ _ _ _ A Ex) as (h1 & s1 & E1 & G1 & V1 & R1 & _). rewrite E1. cbn [obind].
        destruct (IHb _ _ _ _ _ (rep_grows _ _ _ _ B G1) Ey) as (h2 & s2 & E2 & G2 & V2 & R2 & _). rewrite E2. cbn [obind].
        destruct (concat_ok h2 s1 s2 (grows_valid _ _ _ V1 G2) V2) as (h3 & s3 & E3 & G3 & V3 & R3 & L3). rewrite E3.
        eexists _, _. split; [reflexivity|]. split; [eauto using grows_trans|]. split; [exact V3|]. split; [rewrite R3, (grows_read _ _ _ V1 G2); congruence|].
        right. pose proof (grows_len _ _ G1). pose proof (grows_len _ _ G2). lia.
      * destruct (IHa _ _ _ _ _ A E) as (h1 & s1 & E1 & G1 & V1 & R1 & I1). exists h1, s1. intuition auto.
    + destruct (negb _); [|injection E as <-; apply M0]. destruct (IHb _ _ _ _ _ B E) as (h1 & s1 & E1 & G1 & V1 & R1 & I1). exists h1, s1. intuition auto.
Qed.
