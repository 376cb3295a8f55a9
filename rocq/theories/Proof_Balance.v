(** Interval trees: adding keeps a tree balanced. *)
From Coq Require Import ZArith Lia.
From Verif Require Import Base Model_Interval Spec_Interval Spec_Balance Proof_Interval Proof_Interval3 Proof_Interval4.

Section P.
Context {V : Type}.
Notation tree := (tree V).
Notation nd := (nd V).
Notation itree := (itree V).
Notation iop := (iop V).

Definition avl (t : tree) : Prop := balanced t /\ heights t.

Lemma apply_height : forall shs (n : nd) l r, n_height (apply_shifts shs n l r) = n_height n.
Proof.
  intros shs n l r. unfold apply_shifts. destruct (rev shs); [reflexivity|]. destruct (_ <=? _)%nat; [reflexivity|].
  generalize (skipn (shift_start (n_ts n) shs (List.length shs - 1)) shs). intro ss. revert n. induction ss as [|x ss IH]; intro n; [reflexivity|].
  cbn [fold_left]. rewrite IH. unfold apply_shift. destruct (_ <=? _)%nat; [reflexivity|]. cbv zeta. destruct (_ <? _)%Z; [reflexivity|].
  destruct (_ <=? _)%Z; reflexivity.
Qed.
Lemma height_depth : forall t : tree, heights t -> height t = depth t.
Proof. intros [|n l r] H; [reflexivity|]. exact (proj1 H). Qed.
Lemma sync_depth : forall shs (t : tree), depth (sync shs t) = depth t.
Proof. intros shs [|n l r]; reflexivity. Qed.

(** the shape after a rotation *)
Lemma rotate_left_shape : forall shs (n : nd) l m rl rr, heights l -> heights rl -> heights rr ->
  exists n' m', rotate_left shs (Node n l (Node m rl rr)) = Some (Node m' (Node n' l rl) rr) /\
    n_height n' = S (Nat.max (depth l) (depth rl)) /\ n_height m' = S (Nat.max (S (Nat.max (depth l) (depth rl))) (depth rr)).
Proof.
  intros shs n l m rl rr A B C. cbn [rotate_left sync]. eexists. eexists. split; [reflexivity|]. cbn [n_height update_max set_max recalc set_height height].
  rewrite (height_depth l A), (height_depth rl B), (height_depth rr C). auto.
Qed.
Lemma rotate_right_shape : forall shs (n : nd) r m ll lr, heights r -> heights ll -> heights lr ->
  exists n' m', rotate_right shs (Node n (Node m ll lr) r) = Some (Node m' ll (Node n' lr r)) /\
    n_height n' = S (Nat.max (depth lr) (depth r)) /\ n_height m' = S (Nat.max (depth ll) (S (Nat.max (depth lr) (depth r)))).
Proof.
  intros shs n r m ll lr A B C. cbn [rotate_right sync]. eexists. eexists. split; [reflexivity|]. cbn [n_height update_max set_max recalc set_height height].
  rewrite (height_depth r A), (height_depth ll B), (height_depth lr C). auto.
Qed.

Lemma rebalance_avl : forall shs (n : nd) l r, avl l -> avl r -> depth l <= 2 + depth r -> depth r <= 2 + depth l ->
  avl (rebalance shs (Node n l r)) /\ Nat.max (depth l) (depth r) <= depth (rebalance shs (Node n l r)) <= S (Nat.max (depth l) (depth r)) /\
  (depth l <= S (depth r) -> depth r <= S (depth l) -> depth (rebalance shs (Node n l r)) = S (Nat.max (depth l) (depth r))).
Proof.
  intros shs n l r [Bl Hl] [Br Hr] D1 D2. unfold rebalance. rewrite (height_depth l Hl), (height_depth r Hr).
  set (n0 := update_max (recalc n l r) l r).
  assert (E0 : n_height n0 = S (Nat.max (depth l) (depth r))).
  { unfold n0. cbn [n_height update_max set_max recalc set_height]. rewrite (height_depth l Hl), (height_depth r Hr). reflexivity. }
  clearbody n0. destruct (Nat.leb_spec (depth l + 2) (depth r)) as [Q|Q].
  - destruct r as [|m rl rr]; [cbn in Q; lia|]. cbn [balanced heights] in Br, Hr. destruct Br as (B1 & B2 & B3 & B4). destruct Hr as (H1 & H2 & H3).
    cbn [height_left height_right]. rewrite (height_depth rl H2), (height_depth rr H3). cbn [depth] in Q, D1, D2 |- *.
    destruct (Nat.ltb_spec (depth rr) (depth rl)) as [K|K].
    + destruct rl as [|m2 a b]; [cbn in K; lia|]. cbn [balanced heights] in B3, H2. destruct B3 as (C1 & C2 & C3 & C4). destruct H2 as (G1 & G2 & G3).
      destruct (rotate_right_shape shs m rr m2 a b H3 G2 G3) as (x & y & E1 & E2 & E3). rewrite E1. cbn [or_self].
      destruct (rotate_left_shape shs n0 l y a (Node x b rr) Hl G2) as (x2 & y2 & F1 & F2 & F3); [cbn [heights depth]; auto|]. rewrite F1. cbn [or_self].
      cbn [depth] in *. unfold avl. cbn [balanced heights depth]. repeat split; auto; lia.
    + destruct (rotate_left_shape shs n0 l m rl rr Hl H2 H3) as (x & y & E1 & E2 & E3). rewrite E1. cbn [or_self].
      unfold avl. cbn [balanced heights depth]. repeat split; auto; lia.
  - destruct (Nat.leb_spec (depth r + 2) (depth l)) as [Q'|Q'].
    + destruct l as [|m ll lr]; [cbn in Q'; lia|]. cbn [balanced heights] in Bl, Hl. destruct Bl as (B1 & B2 & B3 & B4). destruct Hl as (H1 & H2 & H3).
      cbn [height_left height_right]. rewrite (height_depth ll H2), (height_depth lr H3). cbn [depth] in Q', D1, D2 |- *.
      destruct (Nat.ltb_spec (depth ll) (depth lr)) as [K|K].
      * destruct lr as [|m2 a b]; [cbn in K; lia|]. cbn [balanced heights] in B4, H3. destruct B4 as (C1 & C2 & C3 & C4). destruct H3 as (G1 & G2 & G3).
        destruct (rotate_left_shape shs m ll m2 a b H2 G2 G3) as (x & y & E1 & E2 & E3). rewrite E1. cbn [or_self].
        destruct (rotate_right_shape shs n0 r y (Node x ll a) b Hr) as (x2 & y2 & F1 & F2 & F3); [cbn [heights depth]; auto|exact G3|]. rewrite F1. cbn [or_self].
        cbn [depth] in *. unfold avl. cbn [balanced heights depth]. repeat split; auto; lia.
      * destruct (rotate_right_shape shs n0 r m ll lr Hr H2 H3) as (x & y & E1 & E2 & E3). rewrite E1. cbn [or_self].
        unfold avl. cbn [balanced heights depth]. repeat split; auto; lia.
    + unfold avl. cbn [balanced heights depth]. repeat split; auto; lia.
Qed.

Lemma add_avl : forall shs k ref pos id v (t : tree), avl t ->
  avl (fst (add shs k ref pos id v t)) /\ depth t <= depth (fst (add shs k ref pos id v t)) <= S (depth t).
Proof.
  intros shs k ref pos id v. induction t as [|n l IHl r IHr]; intros [B H].
  - cbn. split; [|lia]. split; cbn; lia || tauto.
  - cbn [balanced heights] in B, H. destruct B as (B1 & B2 & B3 & B4). destruct H as (H1 & H2 & H3).
    specialize (IHl (conj B3 H2)). specialize (IHr (conj B4 H3)). cbn [add]. set (n0 := apply_shifts shs n l r).
    destruct (key_compare pos id (n_pos n0) (n_id n0)).
    + cbn [fst]. destruct (rebalance_avl shs (set_ts k (set_ins (n_ins n0 ++ [v]) n0)) l r (conj B3 H2) (conj B4 H3)) as (A & _ & E); [lia|lia|]. split; [exact A|]. rewrite E by lia. cbn [depth]. lia.
    + destruct (add shs k ref pos id v l) as [l' h]. cbn [fst] in IHl |- *. destruct IHl as [Al Dl].
      destruct (rebalance_avl shs n0 l' r Al (conj B4 H3)) as (A & D & E); [lia|lia|]. split; [exact A|]. cbn [depth]. lia.
    + destruct (add shs k ref pos id v r) as [r' h]. cbn [fst] in IHr |- *. destruct IHr as [Ar Dr].
      destruct (rebalance_avl shs n0 l r' (conj B3 H2) Ar) as (A & D & E); [lia|lia|]. split; [exact A|]. cbn [depth]. lia.
Qed.

Lemma sync_avl : forall shs (t : tree), avl t -> avl (sync shs t).
Proof. intros shs [|n l r] H; [exact H|]. unfold avl in *. cbn [sync balanced heights]. rewrite apply_height. exact H. Qed.
Lemma remove_avl : forall shs pos id (t : tree), avl t ->
  avl (remove shs pos id t) /\ depth (remove shs pos id t) <= depth t <= S (depth (remove shs pos id t)).
Proof.
  intros shs pos id t. revert pos id. induction t as [|n l IHl r IHr]; intros pos id [B H].
  - cbn. split; [split; exact Logic.I|lia].
  - cbn [balanced heights] in B, H. destruct B as (B1 & B2 & B3 & B4). destruct H as (H1 & H2 & H3).
    cbn [remove]. set (n0 := apply_shifts shs n l r). destruct (key_compare pos id (n_pos n0) (n_id n0)).
    + destruct l as [|nl ll lr], r as [|nr rl rr].
      * cbn. split; [split; exact Logic.I|lia].
      * pose proof (sync_avl shs (Node nr rl rr) (conj B4 H3)) as S. cbn [sync] in S |- *. destruct S as [S1 S2]. cbn [balanced heights] in S1, S2.
        destruct (rebalance_avl shs (apply_shifts shs nr rl rr) rl rr) as (A & _ & E); [split; tauto|split; tauto|lia|lia|]. split; [exact A|]. rewrite E by lia. cbn [depth]. lia.
      * pose proof (sync_avl shs (Node nl ll lr) (conj B3 H2)) as S. cbn [sync] in S |- *. destruct S as [S1 S2]. cbn [balanced heights] in S1, S2.
        destruct (rebalance_avl shs (apply_shifts shs nl ll lr) ll lr) as (A & _ & E); [split; tauto|split; tauto|lia|lia|]. split; [exact A|]. rewrite E by lia. cbn [depth]. lia.
      * set (m := smallest shs nr rl rr). destruct (IHr (n_pos m) (n_id m) (conj B4 H3)) as [Ar Dr].
        pose proof (sync_avl shs (Node nl ll lr) (conj B3 H2)) as Al. pose proof (sync_depth shs (Node nl ll lr)) as Dl.
        set (l' := sync shs (Node nl ll lr)) in *. set (r' := remove shs (n_pos m) (n_id m) (Node nr rl rr)) in *. clearbody l' r'.
        set (dl := depth (Node nl ll lr)) in *. set (dr := depth (Node nr rl rr)) in *.
        destruct (rebalance_avl shs (set_ts (n_ts m) (set_ins (go_copy (n_ins (set_key (n_pos m) (n_id m) n0)) (n_ins m)) (set_key (n_pos m) (n_id m) n0))) l' r' Al Ar) as (A & D & E); [lia|lia|].
        split; [exact A|]. change (depth (Node n (Node nl ll lr) (Node nr rl rr))) with (S (Nat.max dl dr)). clearbody dl dr. lia.
    + destruct (IHl pos id (conj B3 H2)) as [Al Dl]. destruct (rebalance_avl shs n0 (remove shs pos id l) r Al (conj B4 H3)) as (A & D & E); [lia|lia|]. split; [exact A|]. cbn [depth]. lia.
    + destruct (IHr pos id (conj B4 H3)) as [Ar Dr]. destruct (rebalance_avl shs n0 l (remove shs pos id r) (conj B3 H2) Ar) as (A & D & E); [lia|lia|]. split; [exact A|]. cbn [depth]. lia.
Qed.

(** looking does not change the shape *)
Lemma search_avl : forall shs pos id (t : tree), depth (fst (search shs pos id t)) = depth t /\ (avl t -> avl (fst (search shs pos id t))).
Proof.
  intros shs pos id. induction t as [|n l [D1 A1] r [D2 A2]]; [auto|]. cbn [search]. set (n0 := apply_shifts shs n l r).
  assert (E : n_height n0 = n_height n) by apply apply_height.
  destruct (key_compare pos id (n_pos n0) (n_id n0)).
  - cbn [fst]. split; [reflexivity|]. unfold avl. cbn [balanced heights]. rewrite E. auto.
  - destruct (search shs pos id l) as [l' h]. cbn [fst] in *. cbn [depth]. rewrite D1. split; [reflexivity|]. unfold avl in *. cbn [balanced heights depth]. rewrite D1, E. tauto.
  - destruct (search shs pos id r) as [r' h]. cbn [fst] in *. cbn [depth]. rewrite D2. split; [reflexivity|]. unfold avl in *. cbn [balanced heights depth]. rewrite D2, E. tauto.
Qed.
Lemma touch_avl : forall shs h (t : tree), depth (fst (touch shs h t)) = depth t /\ (avl t -> avl (fst (touch shs h t))).
Proof.
  intros shs h. induction t as [|n l [D1 A1] r [D2 A2]]; [auto|]. cbn [touch]. destruct (n_ref n =? h)%nat.
  - cbn [fst]. split; [reflexivity|]. unfold avl. cbn [balanced heights]. rewrite apply_height. auto.
  - destruct (touch shs h l) as [l' p]. cbn [fst] in D1, A1. destruct p as [p|]; cbn [fst].
    + cbn [depth]. rewrite D1. split; [reflexivity|]. unfold avl in *. cbn [balanced heights depth]. rewrite D1. tauto.
    + destruct (touch shs h r) as [r' p]. cbn [fst] in *. cbn [depth]. rewrite D1, D2. split; [reflexivity|]. unfold avl in *. cbn [balanced heights depth]. rewrite D1, D2. tauto.
Qed.

Lemma step_avl : forall (t : itree) (o : iop), ~ is_shift o -> avl (t_root t) -> exists t', it_step (Some t) o = Some t' /\ avl (t_root t').
Proof.
  intros t [id low high v|id pos|low high amt|h] N A; cbn [it_step]; [| |destruct (N Logic.I)|]; eexists; (split; [reflexivity|]).
  - unfold it_add. pose proof (add_avl (t_shifts t) (t_ts t) (t_next t) low id (Iv low high v) (t_root t) A) as [K _]. destruct (add _ _ _ _ _ _ _). exact K.
  - unfold it_find. pose proof (proj2 (search_avl (t_shifts t) pos id (t_root t)) A) as K. destruct (search _ _ _ _). exact K.
  - unfold it_pos. pose proof (proj2 (touch_avl (t_shifts t) h (t_root t)) A) as K. destruct (touch _ _ _). exact K.
Qed.

Theorem run_balanced : forall (tr : list iop) t, Forall (fun o => ~ is_shift o) tr -> it_run tr = Some t -> balanced (t_root t).
Proof.
  intros tr t F R. enough (K : exists t', it_run tr = Some t' /\ avl (t_root t')) by (destruct K as (t' & E & [A _]); congruence). clear R t.
  induction tr as [|o tr IH] using rev_ind; [exists it_empty; split; [reflexivity|split; exact Logic.I]|].
  apply Forall_app in F. destruct F as [F Fo]. inversion Fo; subst. destruct (IH F) as (t & E & A). rewrite it_run_snoc, E. apply step_avl; assumption.
Qed.

(** a balanced tree is not deep *)
Lemma balanced_deep : forall h (t : tree), depth t <= h -> balanced t -> 2 ^ depth t <= (size t + 1) * (size t + 1).
Proof.
  intros h. induction h as [h IH] using lt_wf_ind. intros [|n l r] D B; [cbn; lia|]. cbn [balanced] in B. destruct B as (B1 & B2 & B3 & B4). cbn [depth size] in D |- *.
  assert (K : forall x y : tree, balanced x -> balanced y -> depth x <= S (depth y) -> depth y <= depth x -> S (depth x) <= h -> 2 ^ S (depth x) <= (size x + size y + 2) * (size x + size y + 2)).
  { intros x y Bx By D1 D2 D3. pose proof (IH (depth x) ltac:(lia) x ltac:(lia) Bx) as Hx. pose proof (IH (depth y) ltac:(lia) y ltac:(lia) By) as Hy.
    assert (2 ^ depth x <= 2 * 2 ^ depth y) by (change (2 * 2 ^ depth y) with (2 ^ S (depth y)); apply Nat.pow_le_mono_r; lia).
    change (2 ^ S (depth x)) with (2 * 2 ^ depth x).
    set (X := 2 ^ depth x) in *. set (Y := 2 ^ depth y) in *. set (a := size x + 1) in *. set (b := size y + 1) in *. replace (size x + size y + 2) with (a + b) by lia. clearbody X Y a b.
    assert (X <= 2 * (b * b)) by lia. assert (b <= a \/ a <= b) as [?|?] by lia; nia. }
  destruct (Nat.le_ge_cases (depth r) (depth l)) as [Q|Q].
  - rewrite Nat.max_l by lia. replace (size l + size r + 1 + 1) with (size l + size r + 2) by lia. apply K; auto; lia.
  - rewrite Nat.max_r by lia. replace (size l + size r + 1 + 1) with (size r + size l + 2) by lia. apply K; auto; lia.
Qed.
End P.

Theorem run_depth : forall {V} (tr : list (iop V)) t, Forall (fun o => ~ is_shift o) tr -> it_run tr = Some t ->
  2 ^ depth (t_root t) <= (it_size t + 1) * (it_size t + 1).
Proof. intros V tr t F R. apply (balanced_deep (depth (t_root t))); [lia|]. eapply run_balanced; eassumption. Qed.
Theorem add_balanced : forall {V} (t : itree V) id low high v, balanced (t_root t) -> heights (t_root t) ->
  balanced (t_root (fst (it_add t id low high v))) /\ heights (t_root (fst (it_add t id low high v))).
Proof.
  intros V t id low high v B H. unfold it_add. pose proof (add_avl (t_shifts t) (t_ts t) (t_next t) low id (Iv low high v) (t_root t) (conj B H)) as [K _].
  destruct (add _ _ _ _ _ _ _). exact K.
Qed.

Theorem remove_balanced : forall {V} shs pos id (t : tree V), balanced t -> heights t ->
  balanced (remove shs pos id t) /\ heights (remove shs pos id t).
Proof. intros V shs pos id t B H. exact (proj1 (remove_avl shs pos id t (conj B H))). Qed.
