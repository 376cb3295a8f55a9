(** Proofs about the lazylog interval tree: removal and shifting. *)
From Coq Require Import ZArith Lia Sorted.
From Verif Require Import Base Model_Interval Spec_Interval Proof_Interval.
Local Open Scope Z_scope.

Section P.
Context {V : Type}.
Notation tree := (tree V).
Notation nd := (nd V).
Notation ival := (ival V).
Notation vw := (@vw V).

Lemma views_length : forall shs (t : tree), List.length (views shs t) = size t.
Proof. induction t; cbn [views size]; [reflexivity|]. rewrite app_length. cbn. lia. Qed.

(** ** Removing the smallest node *)
Lemma smallest_up : forall shs (t : tree) n l r, t = Node n l r -> wf_shs shs -> inv shs t ->
  n_ts (smallest shs n l r) = List.length shs.
Proof.
  induction t as [|n l IHl r _]; intros n0 l0 r0 E W H; [discriminate|]. injection E as <- <- <-.
  destruct (node_sync shs n l r W H) as (H2 & T2 & V2).
  destruct l as [|ln ll lr]; cbn [smallest]; [exact T2|].
  apply inv_elim in H2; [|assumption|assumption]. eapply IHl; [reflexivity|assumption|tauto].
Qed.

Lemma sync_loose : forall shs (t : tree) n l r, wf_shs shs -> inv shs t -> sync shs t = Node n l r -> loose shs n l r.
Proof.
  intros shs t n l r W H E. destruct (sync_spec shs t W H) as (X & Y & Z). rewrite E in X, Y.
  apply inv_loose; assumption.
Qed.

Lemma rebalance_sync : forall shs (t : tree), wf_shs shs -> inv shs t ->
  inv shs (rebalance shs (sync shs t)) /\ up shs (rebalance shs (sync shs t)) /\
  views shs (rebalance shs (sync shs t)) = views shs t.
Proof.
  intros shs t W H. destruct (sync shs t) as [|n l r] eqn:E.
  - destruct t; [cbn; auto|discriminate].
  - destruct (sync_spec shs t W H) as (X & Y & Z). rewrite E in X, Y, Z.
    destruct (rebalance_spec shs n l r W (inv_loose _ _ _ _ W Y X)) as (A & B & C).
    split; [exact A|]. split; [exact B|]. rewrite C. exact Z.
Qed.

Lemma remove_min : forall shs (t : tree) n l r, t = Node n l r -> wf_shs shs -> inv shs t ->
  let m := smallest shs n l r in
  let t' := remove shs (n_pos m) (n_id m) t in
  inv shs t' /\ up shs t' /\ views shs t = view m :: views shs t'.
Proof.
  induction t as [|n l IHl r IHr]; intros n0 l0 r0 E W H m t'; [discriminate|]. injection E as <- <- <-.
  destruct (node_sync shs n l r W H) as (H2 & T2 & V2).
  unfold t'. clear t'. cbn [remove]. rewrite <- V2.
  pose proof H2 as H3. apply inv_elim in H3; [|assumption|assumption]. destruct H3 as (A & B & C & D & F & G & I & J).
  destruct l as [|ln ll lr].
  - unfold m. clear m. cbn [smallest]. set (m := apply_shifts shs n Leaf r) in *. clearbody m.
    pose proof (key_compare_spec (n_pos m) (n_id m) (n_pos m) (n_id m)) as K.
    destruct (key_compare (n_pos m) (n_id m) (n_pos m) (n_id m)); try lia.
    rewrite views_up by assumption. cbn [views app]. destruct r as [|rn rl rr].
    + cbn. auto.
    + destruct (rebalance_sync shs (Node rn rl rr) W J) as (X & Y & Z). split; [exact X|]. split; [exact Y|]. rewrite Z. reflexivity.
  - specialize (IHl ln ll lr eq_refl W I). cbv zeta in IHl.
    assert (Em : m = smallest shs ln ll lr) by reflexivity. clearbody m. subst m.
    set (m := smallest shs ln ll lr) in *.
    destruct IHl as (X & Y & Z).
    set (n1 := apply_shifts shs n (Node ln ll lr) r) in *. clearbody n1.
    assert (K1 : klt (view m) (view n1)).
    { rewrite Z in F. inversion F; assumption. }
    pose proof (key_compare_spec (n_pos m) (n_id m) (n_pos n1) (n_id n1)) as K.
    destruct (key_compare (n_pos m) (n_id m) (n_pos n1) (n_id n1)); unfold klt in K1; cbn in K1; try lia.
    set (l2 := remove shs (n_pos m) (n_id m) (Node ln ll lr)) in *. clearbody l2.
    assert (S : incl (views shs l2) (views shs (Node ln ll lr))) by (rewrite Z; apply incl_tl, incl_refl).
    assert (L : loose shs n1 l2 r).
    { apply inv_loose; try assumption. eapply inv_replace; try eassumption. apply incl_refl. }
    destruct (rebalance_spec shs n1 l2 r W L) as (X' & Y' & Z'). split; [exact X'|]. split; [exact Y'|].
    rewrite Z'. rewrite (views_up shs n1 (Node ln ll lr) r), (views_up shs n1 l2 r) by assumption. rewrite Z. reflexivity.
Qed.

Lemma views_sorted : forall shs (t : tree), inv shs t -> StronglySorted klt (views shs t).
Proof.
  induction t as [|n l IHl r IHr]; intros H; [constructor|]. cbn [inv views] in *.
  destruct H as (_ & _ & _ & _ & _ & _ & F & G & I & J). specialize (IHl I). specialize (IHr J).
  revert F IHl. generalize (views shs l). intros L F SL. induction L as [|x L IH]; cbn.
  - constructor; assumption.
  - inversion F; subst. inversion SL; subst. constructor; [apply IH; assumption|].
    apply Forall_app; split; [assumption|]. constructor; [assumption|].
    eapply Forall_impl; [|exact G]. intros y Hy. eapply klt_trans; eassumption.
Qed.

(** ** Removing a root without intervals *)
Lemma remove_root : forall shs (n : nd) l r, wf_shs shs -> n_ts n = List.length shs -> n_ins n = [] ->
  inv shs (Node n l r) ->
  let t' := remove shs (n_pos n) (n_id n) (Node n l r) in
  inv shs t' /\ up shs t' /\
  (views shs t' = views shs l ++ views shs r \/
   exists m R, views shs r = m :: R /\ views shs t' = views shs l ++ (n_ref n, v_pos m, v_id m, []) :: R).
Proof.
  intros shs n l r W T E0 H t'. unfold t'. clear t'. cbn [remove]. rewrite apply_id by assumption.
  pose proof (key_compare_spec (n_pos n) (n_id n) (n_pos n) (n_id n)) as K.
  destruct (key_compare (n_pos n) (n_id n) (n_pos n) (n_id n)); try lia. clear K.
  apply inv_elim in H; [|assumption|assumption]. destruct H as (A & B & C & D & F & G & I & J).
  destruct l as [|ln ll lr]; destruct r as [|rn rl rr].
  - cbn. auto.
  - destruct (rebalance_sync shs (Node rn rl rr) W J) as (X & Y & Z). split; [exact X|]. split; [exact Y|]. left. rewrite Z. reflexivity.
  - destruct (rebalance_sync shs (Node ln ll lr) W I) as (X & Y & Z). split; [exact X|]. split; [exact Y|]. left. rewrite Z. rewrite app_nil_r. reflexivity.
  - set (L := Node ln ll lr) in *. set (R := Node rn rl rr) in *. set (m := smallest shs rn rl rr).
    pose proof (smallest_up shs R rn rl rr eq_refl W J) as Tm.
    destruct (remove_min shs R rn rl rr eq_refl W J) as (X & Y & Z). fold m in Tm, X, Y, Z.
    set (r2 := remove shs (n_pos m) (n_id m) R) in *. clearbody r2.
    destruct (sync_spec shs L W I) as (X1 & Y1 & Z1).
    cbn zeta. cbn [set_key n_ins]. rewrite E0.
    assert (Eg : go_copy (@nil ival) (n_ins m) = []) by (unfold go_copy; rewrite skipn_nil; reflexivity).
    rewrite Eg. set (n2 := set_ts (n_ts m) (set_ins [] (set_key (n_pos m) (n_id m) n))).
    pose proof (views_sorted shs R J) as SR. rewrite Z in SR, D, G. inversion SR; subst. inversion D; subst. inversion G; subst.
    assert (Lo : loose shs n2 (sync shs L) r2).
    { unfold loose. rewrite Z1. refine (conj Tm (conj _ (conj _ (conj _ (conj _ (conj _ (conj _ (conj X1 X)))))))).
      - constructor.
      - exact (proj1 H3).
      - left. exact C.
      - left. exact H4.
      - eapply Forall_impl; [|exact F]. intros x Hx. change (klt x (view m)). exact (klt_trans _ _ _ Hx H5).
      - exact H2. }
    destruct (rebalance_spec shs n2 _ r2 W Lo) as (X' & Y' & Z'). split; [exact X'|]. split; [exact Y'|].
    right. exists (view m), (views shs r2). split; [exact Z|]. rewrite Z'. rewrite views_up by assumption. rewrite Z1. reflexivity.
Qed.

(** ** drop_overlaps *)
Lemma drop_spec : forall low high fuel (kept ins : list ival), (List.length ins < fuel)%nat ->
  forall i, In i (drop_overlaps fuel low high kept ins) <-> In i kept \/ (In i ins /\ overlaps i low high = false).
Proof.
  induction fuel; intros kept ins Hf i; [lia|]. cbn [drop_overlaps]. destruct ins as [|x rest].
  - rewrite app_nil_r. cbn. tauto.
  - destruct (overlaps x low high) eqn:O.
    + destruct rest as [|y rest].
      * cbn. split; [tauto|]. intros [?|[[->|[]] ?]]; [assumption|congruence].
      * set (q := y :: rest) in *.
        assert (Hq : q <> []) by discriminate.
        pose proof (app_removelast_last x Hq) as Eq.
        assert (Hl : List.length q = S (List.length (removelast q))) by (rewrite Eq at 1; rewrite app_length; cbn; lia).
        rewrite IHfuel; [|cbn [List.length] in *; lia].
        assert (Hi : In i (last q x :: removelast q) <-> In i q).
        { rewrite Eq at 3. rewrite in_app_iff. cbn. tauto. }
        rewrite Hi. cbn [In]. split; [tauto|]. intros [?|[[->|?] ?]]; [tauto|congruence|tauto].
    + rewrite IHfuel; [|cbn [List.length] in *; lia]. rewrite in_app_iff. cbn [In]. split; [intros [[?|[->|[]]]|?]; tauto|].
      intros [?|[[->|?] ?]]; tauto.
Qed.

Lemma drop_none : forall low high fuel (kept ins : list ival), Forall (fun i => overlaps i low high = false) ins ->
  drop_overlaps fuel low high kept ins = kept ++ ins.
Proof.
  induction fuel; intros kept ins H; [reflexivity|]. destruct H as [|x rest Hx H]; [reflexivity|].
  cbn [drop_overlaps]. rewrite Hx, IHfuel by assumption. rewrite <- app_assoc. reflexivity.
Qed.

(** ** Where the nodes of the new tree come from *)
Definition from (L : list vw) (x : vw) : Prop :=
  exists y, In y L /\ v_pos x = v_pos y /\ v_id x = v_id y /\ incl (v_ins x) (v_ins y) /\
    (v_ins x <> [] -> v_ref x = v_ref y).

Lemma from_refl : forall L, Forall (from L) L.
Proof. intros. apply Forall_forall. intros x Hx. exists x. repeat split; auto. apply incl_refl. Qed.
Lemma from_trans : forall L1 L2 L3, Forall (from L1) L2 -> Forall (from L2) L3 -> Forall (from L1) L3.
Proof.
  intros L1 L2 L3 H1 H2. rewrite Forall_forall in *. intros x Hx. destruct (H2 x Hx) as (y & A & B & C & D & E).
  destruct (H1 y A) as (z & A' & B' & C' & D' & E'). exists z. split; [exact A'|]. split; [congruence|]. split; [congruence|]. split.
  - eapply incl_tran; eassumption.
  - intros N. rewrite E by assumption. apply E'. intros Z. rewrite Z in D. apply N. destruct (v_ins x) as [|i ?]; [reflexivity|].
    destruct (D i (or_introl eq_refl)).
Qed.
Lemma from_incl : forall L L', incl L' L -> Forall (from L) L'.
Proof.
  intros. apply Forall_forall. intros x Hx. exists x. repeat split; auto. apply incl_refl.
Qed.
Lemma from_mono : forall L1 L2 K, incl L1 L2 -> Forall (from L1) K -> Forall (from L2) K.
Proof. intros. eapply from_trans; [apply from_incl; eassumption|eassumption]. Qed.

Lemma from_stable : forall (P : vw -> Prop) L L',
  (forall x y, v_pos x = v_pos y -> v_id x = v_id y -> incl (v_ins x) (v_ins y) -> P y -> P x) ->
  Forall (from L) L' -> Forall P L -> Forall P L'.
Proof.
  intros P L L' HP H F. rewrite Forall_forall in *. intros x Hx. destruct (H x Hx) as (y & A & B & C & D & _).
  eapply HP; eauto.
Qed.
Lemma from_below : forall m L L', Forall (from L) L' -> Forall (below m) L -> Forall (below m) L'.
Proof.
  intros m L L'. apply from_stable. intros x y Hp _ Hi [A B]. split; [lia|]. eapply incl_Forall; eassumption.
Qed.
Lemma from_klt_l : forall y L L', Forall (from L) L' -> Forall (fun x => klt x y) L -> Forall (fun x => klt x y) L'.
Proof. intros y L L'. apply from_stable. unfold klt. intros. lia. Qed.
Lemma from_klt_r : forall y L L', Forall (from L) L' -> Forall (klt y) L -> Forall (klt y) L'.
Proof. intros y L L'. apply from_stable. unfold klt. intros. lia. Qed.

Definition post (low high : Z) (x : vw) : Prop :=
  (v_pos x < low \/ high < v_pos x) /\ Forall (fun i => overlaps i low high = false) (v_ins x).
Lemma from_post : forall low high L L', Forall (from L) L' -> Forall (post low high) L -> Forall (post low high) L'.
Proof.
  intros low high L L'. apply from_stable. intros x y Hp _ Hi [A B]. split; [lia|]. eapply incl_Forall; eassumption.
Qed.

Lemma inv_replace_from : forall shs (n : nd) l r l' r', wf_shs shs -> n_ts n = List.length shs -> inv shs (Node n l r) ->
  inv shs l' -> inv shs r' -> Forall (from (views shs l)) (views shs l') -> Forall (from (views shs r)) (views shs r') ->
  inv shs (Node n l' r').
Proof.
  intros shs n l r l' r' W T H Il Ir Sl Sr. apply inv_elim in H; [|assumption|assumption].
  destruct H as (A & B & C & D & E & F & G & I).
  apply inv_intro; try assumption.
  - eapply from_below; eassumption.
  - eapply from_below; eassumption.
  - eapply from_klt_l; eassumption.
  - eapply from_klt_r; eassumption.
Qed.

Lemma inv_core : forall shs (t : tree), inv shs t -> Forall core (views shs t).
Proof.
  induction t as [|n l IHl r IHr]; intros H; [constructor|]. cbn [inv views] in *.
  apply Forall_app; split; [tauto|]. constructor; tauto.
Qed.

Lemma remove_root_from : forall shs (n : nd) l r t',
  (views shs t' = views shs l ++ views shs r \/
   exists m R, views shs r = m :: R /\ views shs t' = views shs l ++ (n_ref n, v_pos m, v_id m, []) :: R) ->
  Forall (from (views shs l ++ views shs r)) (views shs t').
Proof.
  intros shs n l r t' [E|(m & R & E1 & E2)].
  - rewrite E. apply from_refl.
  - rewrite E2, E1. apply Forall_app; split; [apply from_incl; intros x; rewrite in_app_iff; tauto|].
    constructor; [|apply from_incl; intros x; rewrite in_app_iff; cbn; tauto].
    exists m. cbn. split; [apply in_or_app; right; left; reflexivity|]. split; [reflexivity|]. split; [reflexivity|].
    split; [intros ? []|congruence].
Qed.

(** ** Subsequences, for the uniqueness of references *)
Inductive subseq {A} : list A -> list A -> Prop :=
| sub_nil : forall l, subseq [] l
| sub_keep : forall x l l', subseq l l' -> subseq (x :: l) (x :: l')
| sub_skip : forall x l l', subseq l l' -> subseq l (x :: l').
Lemma subseq_refl : forall {A} (l : list A), subseq l l.
Proof. induction l; constructor; assumption. Qed.
Lemma subseq_trans : forall {A} (l1 l2 l3 : list A), subseq l1 l2 -> subseq l2 l3 -> subseq l1 l3.
Proof.
  intros A l1 l2 l3 H1 H2. revert l1 H1. induction H2; intros l1 H1.
  - inversion H1; subst. constructor.
  - inversion H1; subst; [constructor|apply sub_keep; auto|apply sub_skip; auto].
  - apply sub_skip. auto.
Qed.
Lemma subseq_app : forall {A} (a a' b b' : list A), subseq a a' -> subseq b b' -> subseq (a ++ b) (a' ++ b').
Proof.
  induction 1; intros Hb; cbn.
  - induction l; [exact Hb|apply sub_skip; assumption].
  - apply sub_keep; auto.
  - apply sub_skip; auto.
Qed.
Lemma subseq_incl : forall {A} (l l' : list A), subseq l l' -> incl l l'.
Proof. induction 1; intros y; cbn; [tauto| |]; intros Hy; [destruct Hy; [tauto|right; auto]|right; auto]. Qed.
Lemma subseq_NoDup : forall {A} (l l' : list A), subseq l l' -> NoDup l' -> NoDup l.
Proof.
  induction 1; intros N; [constructor| |].
  - inversion N; subst. constructor; [|auto]. intros K. apply H2. exact (subseq_incl _ _ H x K).
  - inversion N; subst. auto.
Qed.
Definition refs (shs : list shift) (t : tree) : list nat := map v_ref (views shs t).

(** ** Nodes without intervals are never below a small maximum *)
Definition full (x : vw) : Prop := v_ins x <> [].
Fixpoint dense (shs : list shift) (low : Z) (t : tree) : Prop :=
  match t with
  | Leaf => True
  | Node n l r => (n_max (apply_shifts shs n l r) < low -> Forall full (views shs t)) /\ dense shs low l /\ dense shs low r
  end.

Lemma dense_up : forall shs low (n : nd) l r, wf_shs shs -> n_ts n = List.length shs ->
  (dense shs low (Node n l r) <-> (n_max n < low -> Forall full (views shs (Node n l r))) /\ dense shs low l /\ dense shs low r).
Proof. intros. cbn [dense]. rewrite apply_id by assumption. tauto. Qed.

Lemma dense_sync : forall shs low (t : tree), wf_shs shs -> inv shs t -> dense shs low t -> dense shs low (sync shs t).
Proof.
  intros shs low [|n l r] W H D; [exact I|]. destruct (node_sync shs n l r W H) as (H2 & T2 & V2).
  cbn [sync]. apply dense_up; try assumption. rewrite V2. exact D.
Qed.

Lemma dense_rotate_left : forall shs low (n : nd) l r t', wf_shs shs -> n_ts n = List.length shs -> inv shs (Node n l r) ->
  dense shs low (Node n l r) -> rotate_left shs (Node n l r) = Some t' -> dense shs low t'.
Proof.
  intros shs low n l r t' W T H Dn E. destruct (rotate_left_spec shs n l r t' W T H E) as (_ & _ & Vt).
  unfold rotate_left in E. rewrite apply_id in E by assumption.
  apply inv_elim in H; [|assumption|assumption]. destruct H as (A & B & C & D & F & G & Il & J).
  apply dense_up in Dn; [|assumption|assumption]. destruct Dn as (D1 & D2 & D3).
  pose proof (dense_sync shs low r W J D3) as Ds.
  pose proof (sync_spec shs r W J) as (Js & Us & Vs).
  destruct (sync shs r) as [|m rl rr]; [discriminate|]. apply (f_equal (fun o => match o with Some x => x | None => t' end)) in E; cbn beta iota in E.
  cbn [up] in Us. apply dense_up in Ds; [|assumption|assumption]. destruct Ds as (_ & E2 & E3).
  set (n2 := update_max (recalc n l rl) l rl) in *.
  destruct (update_max_spec (recalc n l rl) l rl) as (U1 & U2 & U3 & _). fold n2 in U1, U2, U3.
  assert (T2 : n_ts n2 = List.length shs) by (rewrite U2; exact T).
  assert (V2 : view n2 = view n) by (rewrite U1; reflexivity).
  assert (M2 : n_max n <= n_max n2) by exact U3.
  set (left := Node n2 l rl) in *. set (m2 := update_max (recalc m left rr) left rr) in *.
  destruct (update_max_spec (recalc m left rr) left rr) as (U4 & U5 & U6 & _ & U7 & _). fold m2 in U4, U5, U6, U7.
  assert (T3 : n_ts m2 = List.length shs) by (rewrite U5; exact Us).
  assert (M3 : n_max n2 <= n_max m2) by (eapply U7; reflexivity).
  subst t'. apply dense_up; try assumption. split; [|split; [|exact E3]].
  - intros K. rewrite Vt. apply D1. lia.
  - unfold left. apply dense_up; try assumption. split; [|tauto]. intros K.
    assert (Q : Forall full (views shs (Node n l r))) by (apply D1; lia).
    rewrite views_up in Q by assumption. rewrite views_up by assumption. rewrite V2. rewrite <- Vs in Q.
    rewrite views_up in Q by assumption. apply Forall_app in Q. destruct Q as [Q1 Q2]. inversion Q2; subst.
    apply Forall_app in H2. destruct H2 as [Q3 _]. apply Forall_app; split; [assumption|]. constructor; assumption.
Qed.

Lemma dense_rotate_right : forall shs low (n : nd) l r t', wf_shs shs -> n_ts n = List.length shs -> inv shs (Node n l r) ->
  dense shs low (Node n l r) -> rotate_right shs (Node n l r) = Some t' -> dense shs low t'.
Proof.
  intros shs low n l r t' W T H Dn E. destruct (rotate_right_spec shs n l r t' W T H E) as (_ & _ & Vt).
  unfold rotate_right in E. rewrite apply_id in E by assumption.
  apply inv_elim in H; [|assumption|assumption]. destruct H as (A & B & C & D & F & G & Il & J).
  apply dense_up in Dn; [|assumption|assumption]. destruct Dn as (D1 & D2 & D3).
  pose proof (dense_sync shs low l W Il D2) as Ds.
  pose proof (sync_spec shs l W Il) as (Js & Us & Vs).
  destruct (sync shs l) as [|m ll lr]; [discriminate|]. apply (f_equal (fun o => match o with Some x => x | None => t' end)) in E; cbn beta iota in E.
  cbn [up] in Us. apply dense_up in Ds; [|assumption|assumption]. destruct Ds as (_ & E2 & E3).
  set (n2 := update_max (recalc n lr r) lr r) in *.
  destruct (update_max_spec (recalc n lr r) lr r) as (U1 & U2 & U3 & _). fold n2 in U1, U2, U3.
  assert (T2 : n_ts n2 = List.length shs) by (rewrite U2; exact T).
  assert (V2 : view n2 = view n) by (rewrite U1; reflexivity).
  assert (M2 : n_max n <= n_max n2) by exact U3.
  set (right := Node n2 lr r) in *. set (m2 := update_max (recalc m ll right) ll right) in *.
  destruct (update_max_spec (recalc m ll right) ll right) as (U4 & U5 & U6 & _ & _ & U7). fold m2 in U4, U5, U6, U7.
  assert (T3 : n_ts m2 = List.length shs) by (rewrite U5; exact Us).
  assert (M3 : n_max n2 <= n_max m2) by (eapply U7; reflexivity).
  subst t'. apply dense_up; try assumption. split; [|split; [exact E2|]].
  - intros K. rewrite Vt. apply D1. lia.
  - unfold right. apply dense_up; try assumption. split; [|tauto]. intros K.
    assert (Q : Forall full (views shs (Node n l r))) by (apply D1; lia).
    rewrite views_up in Q by assumption. rewrite views_up by assumption. rewrite V2. rewrite <- Vs in Q.
    rewrite views_up in Q by assumption. apply Forall_app in Q. destruct Q as [Q1 Q2].
    apply Forall_app in Q1. destruct Q1 as [_ Q1]. inversion Q1; subst. apply Forall_app; split; assumption.
Qed.

Lemma dense_replace : forall shs low (n : nd) l r l' r', wf_shs shs -> n_ts n = List.length shs ->
  dense shs low (Node n l r) -> dense shs low l' -> dense shs low r' ->
  incl (views shs l') (views shs l) -> incl (views shs r') (views shs r) -> dense shs low (Node n l' r').
Proof.
  intros shs low n l r l' r' W T D Dl Dr Sl Sr. apply dense_up in D; try assumption. destruct D as (D1 & _).
  apply dense_up; try assumption. split; [|tauto]. intros K. specialize (D1 K). rewrite views_up in * by assumption.
  apply Forall_app in D1. destruct D1 as [Q1 Q2]. inversion Q2; subst.
  apply Forall_app; split; [eapply incl_Forall; eassumption|]. constructor; [assumption|]. eapply incl_Forall; eassumption.
Qed.

Lemma dense_rebalance : forall shs low (n : nd) l r, wf_shs shs -> loose shs n l r ->
  dense shs low (Node n l r) -> dense shs low (rebalance shs (Node n l r)).
Proof.
  intros shs low n l r W H Dn. unfold rebalance. cbv zeta. pose proof (proj1 H) as T.
  destruct (refit shs n l r W H) as (H2 & T2 & V2). cbv zeta in *.
  pose proof (update_max_spec (recalc n l r) l r) as (_ & _ & M & _).
  set (n2 := update_max (recalc n l r) l r) in *. change (n_max n <= n_max n2) in M.
  assert (D2 : dense shs low (Node n2 l r)).
  { apply dense_up in Dn; try assumption. apply dense_up; try assumption. destruct Dn as (D1 & D2 & D3).
    split; [|tauto]. intros K. assert (K2 : n_max n < low) by lia. specialize (D1 K2).
    rewrite views_up in * by assumption. rewrite V2. exact D1. }
  destruct (height l + 2 <=? height r)%nat.
  - set (r2 := if (height_right r <? height_left r)%nat then or_self (rotate_right shs r) r else r).
    assert (K : inv shs r2 /\ views shs r2 = views shs r /\ dense shs low r2).
    { pose proof H2 as H3. apply inv_elim in H3; [|assumption|assumption]. destruct H3 as (_ & _ & _ & _ & _ & _ & _ & Ir).
      pose proof D2 as D3. apply dense_up in D3; [|assumption|assumption]. destruct D3 as (_ & _ & D3).
      unfold r2. destruct (height_right r <? height_left r)%nat; [|tauto].
      destruct (rotate_right shs r) as [r3|] eqn:Er; [|cbn; auto]. cbn [or_self].
      destruct r as [|m rl rr]; [discriminate|].
      pose proof (node_sync shs m rl rr W Ir) as (S1 & S2 & S3).
      pose proof (dense_sync shs low (Node m rl rr) W Ir D3) as S4. cbn [sync] in S4.
      assert (Er' : rotate_right shs (Node (apply_shifts shs m rl rr) rl rr) = Some r3).
      { unfold rotate_right in *. rewrite (apply_id shs (apply_shifts shs m rl rr)) by assumption. exact Er. }
      destruct (rotate_right_spec shs _ _ _ _ W S2 S1 Er') as (X & Y & Z). split; [exact X|]. split; [rewrite Z; exact S3|].
      eapply dense_rotate_right; eassumption. }
    destruct K as (K1 & K2 & K3).
    assert (H3 : inv shs (Node n2 l r2)).
    { eapply inv_replace; try eassumption; [|apply incl_refl|rewrite K2; apply incl_refl]. apply inv_elim in H2; tauto. }
    assert (D3 : dense shs low (Node n2 l r2)).
    { eapply dense_replace; try eassumption; [|apply incl_refl|rewrite K2; apply incl_refl]. apply dense_up in D2; tauto. }
    destruct (rotate_left shs (Node n2 l r2)) as [t'|] eqn:Et; [|exact D3]. cbn [or_self].
    exact (dense_rotate_left shs low n2 l r2 t' W T2 H3 D3 Et).
  - destruct (height r + 2 <=? height l)%nat; [|exact D2].
    set (l2 := if (height_left l <? height_right l)%nat then or_self (rotate_left shs l) l else l).
    assert (K : inv shs l2 /\ views shs l2 = views shs l /\ dense shs low l2).
    { pose proof H2 as H3. apply inv_elim in H3; [|assumption|assumption]. destruct H3 as (_ & _ & _ & _ & _ & _ & Il & _).
      pose proof D2 as D3. apply dense_up in D3; [|assumption|assumption]. destruct D3 as (_ & D3 & _).
      unfold l2. destruct (height_left l <? height_right l)%nat; [|tauto].
      destruct (rotate_left shs l) as [l3|] eqn:Er; [|cbn; auto]. cbn [or_self].
      destruct l as [|m ll lr]; [discriminate|].
      pose proof (node_sync shs m ll lr W Il) as (S1 & S2 & S3).
      pose proof (dense_sync shs low (Node m ll lr) W Il D3) as S4. cbn [sync] in S4.
      assert (Er' : rotate_left shs (Node (apply_shifts shs m ll lr) ll lr) = Some l3).
      { unfold rotate_left in *. rewrite (apply_id shs (apply_shifts shs m ll lr)) by assumption. exact Er. }
      destruct (rotate_left_spec shs _ _ _ _ W S2 S1 Er') as (X & Y & Z). split; [exact X|]. split; [rewrite Z; exact S3|].
      eapply dense_rotate_left; eassumption. }
    destruct K as (K1 & K2 & K3).
    assert (H3 : inv shs (Node n2 l2 r)).
    { eapply inv_replace; try eassumption; [|rewrite K2; apply incl_refl|apply incl_refl]. apply inv_elim in H2; tauto. }
    assert (D3 : dense shs low (Node n2 l2 r)).
    { eapply dense_replace; try eassumption; [|rewrite K2; apply incl_refl|apply incl_refl]. apply dense_up in D2; tauto. }
    destruct (rotate_right shs (Node n2 l2 r)) as [t'|] eqn:Et; [|exact D3]. cbn [or_self].
    exact (dense_rotate_right shs low n2 l2 r t' W T2 H3 D3 Et).
Qed.

Lemma dense_rebalance_sync : forall shs low (t : tree), wf_shs shs -> inv shs t -> dense shs low t ->
  dense shs low (rebalance shs (sync shs t)).
Proof.
  intros shs low t W H D. pose proof (dense_sync shs low t W H D) as D2. destruct (sync shs t) as [|n l r] eqn:E; [exact I|].
  apply dense_rebalance; try assumption. eapply sync_loose; eassumption.
Qed.

Lemma dense_min : forall shs low (t : tree) n l r, t = Node n l r -> wf_shs shs -> inv shs t -> dense shs low t ->
  let m := smallest shs n l r in dense shs low (remove shs (n_pos m) (n_id m) t).
Proof.
  intros shs low. induction t as [|n l IHl r IHr]; intros n0 l0 r0 E W H Dn m; [discriminate|]. injection E as <- <- <-.
  destruct (node_sync shs n l r W H) as (H2 & T2 & V2).
  pose proof (dense_sync shs low (Node n l r) W H Dn) as D2. cbn [sync] in D2.
  pose proof H2 as H3. apply inv_elim in H3; [|assumption|assumption]. destruct H3 as (A & B & C & D & F & G & I & J).
  cbn [remove]. destruct l as [|ln ll lr].
  - unfold m. clear m. cbn [smallest]. set (m := apply_shifts shs n Leaf r) in *. clearbody m.
    pose proof (key_compare_spec (n_pos m) (n_id m) (n_pos m) (n_id m)) as K.
    destruct (key_compare (n_pos m) (n_id m) (n_pos m) (n_id m)); try lia.
    destruct r as [|rn rl rr]; [exact Logic.I|]. apply dense_rebalance_sync; try assumption. apply dense_up in D2; tauto.
  - pose proof (remove_min shs (Node ln ll lr) ln ll lr eq_refl W I) as RM. cbv zeta in RM.
    assert (Em : m = smallest shs ln ll lr) by reflexivity. clearbody m. subst m.
    set (m := smallest shs ln ll lr) in *. destruct RM as (X & Y & Z).
    set (n1 := apply_shifts shs n (Node ln ll lr) r) in *. clearbody n1.
    assert (K1 : klt (view m) (view n1)) by (rewrite Z in F; inversion F; assumption).
    pose proof (key_compare_spec (n_pos m) (n_id m) (n_pos n1) (n_id n1)) as K.
    destruct (key_compare (n_pos m) (n_id m) (n_pos n1) (n_id n1)); unfold klt in K1; cbn in K1; try lia.
    assert (D3 : dense shs low (remove shs (n_pos m) (n_id m) (Node ln ll lr))).
    { apply IHl with (1 := eq_refl); try assumption. apply dense_up in D2; tauto. }
    set (l2 := remove shs (n_pos m) (n_id m) (Node ln ll lr)) in *. clearbody l2.
    assert (S : incl (views shs l2) (views shs (Node ln ll lr))) by (rewrite Z; apply incl_tl, incl_refl).
    apply dense_rebalance; [assumption| |].
    + apply inv_loose; try assumption. eapply inv_replace; try eassumption. apply incl_refl.
    + eapply dense_replace; try eassumption; [|apply incl_refl]. apply dense_up in D2; tauto.
Qed.

Lemma dense_root : forall shs low (n : nd) l r, wf_shs shs -> n_ts n = List.length shs -> n_ins n = [] ->
  inv shs (Node n l r) -> low <= n_max n -> dense shs low l -> dense shs low r ->
  dense shs low (remove shs (n_pos n) (n_id n) (Node n l r)).
Proof.
  intros shs low n l r W T E0 H Hm Dl Dr. cbn [remove]. rewrite apply_id by assumption.
  pose proof (key_compare_spec (n_pos n) (n_id n) (n_pos n) (n_id n)) as K.
  destruct (key_compare (n_pos n) (n_id n) (n_pos n) (n_id n)); try lia. clear K.
  pose proof (remove_root shs n l r W T E0 H) as RR.
  apply inv_elim in H; [|assumption|assumption]. destruct H as (A & B & C & D & F & G & I & J).
  destruct l as [|ln ll lr]; destruct r as [|rn rl rr].
  - exact Logic.I.
  - apply dense_rebalance_sync; assumption.
  - apply dense_rebalance_sync; assumption.
  - clear RR. set (L := Node ln ll lr) in *. set (R := Node rn rl rr) in *. set (m := smallest shs rn rl rr).
    pose proof (smallest_up shs R rn rl rr eq_refl W J) as Tm.
    destruct (remove_min shs R rn rl rr eq_refl W J) as (X & Y & Z). fold m in Tm, X, Y, Z.
    pose proof (dense_min shs low R rn rl rr eq_refl W J Dr) as Dm. cbv zeta in Dm. fold m in Dm.
    set (r2 := remove shs (n_pos m) (n_id m) R) in *. clearbody r2.
    destruct (sync_spec shs L W I) as (X1 & Y1 & Z1).
    cbn zeta. cbn [set_key n_ins]. rewrite E0.
    assert (Eg : go_copy (@nil ival) (n_ins m) = []) by (unfold go_copy; rewrite skipn_nil; reflexivity).
    rewrite Eg. set (n2 := set_ts (n_ts m) (set_ins [] (set_key (n_pos m) (n_id m) n))).
    pose proof (views_sorted shs R J) as SR. rewrite Z in SR, D, G. inversion SR; subst. inversion D; subst. inversion G; subst.
    assert (Lo : loose shs n2 (sync shs L) r2).
    { unfold loose. rewrite Z1. refine (conj Tm (conj _ (conj _ (conj _ (conj _ (conj _ (conj _ (conj X1 X)))))))).
      - constructor.
      - exact (proj1 H3).
      - left. exact C.
      - left. exact H4.
      - eapply Forall_impl; [|exact F]. intros x Hx. change (klt x (view m)). exact (klt_trans _ _ _ Hx H5).
      - exact H2. }
    apply dense_rebalance; [assumption|exact Lo|]. apply dense_up; try assumption.
    split; [|split; [apply dense_sync; assumption|exact Dm]]. change (n_max n2) with (n_max n). lia.
Qed.

(** ** removeOverlaps *)
Definition hollow_right (high : Z) (x : vw) : Prop := v_ins x = [] -> high < v_pos x.
Lemma remove_overlaps_spec : forall shs low high fuel (t : tree), wf_shs shs -> inv shs t -> (size t < fuel)%nat ->
  exists t', remove_overlaps fuel shs low high t = Some t' /\ inv shs t' /\ up shs t' /\ (size t' <= size t)%nat /\
    Forall (from (views shs t)) (views shs t') /\ Forall (post low high) (views shs t') /\
    subseq (refs shs t') (refs shs t) /\
    (low <= high -> dense shs low t -> dense shs low t' /\ Forall (hollow_right high) (views shs t')).
Proof.
  intros shs low high. induction fuel as [|fuel IH]; intros t W H Hf; [lia|].
  destruct t as [|n0 l r].
  - exists Leaf. cbn. do 6 (split; [auto|]). split; [constructor|auto].
  - cbn [remove_overlaps]. destruct (node_sync shs n0 l r W H) as (H2 & T2 & V2). rewrite <- V2.
    assert (Vr : refs shs (Node n0 l r) = refs shs (Node (apply_shifts shs n0 l r) l r)) by (unfold refs; rewrite V2; reflexivity).
    rewrite Vr.
    assert (Dw : dense shs low (Node n0 l r) -> dense shs low (Node (apply_shifts shs n0 l r) l r)).
    { intros K. exact (dense_sync shs low (Node n0 l r) W H K). }
    set (n := apply_shifts shs n0 l r) in *. clearbody n. clear V2 Vr H. cbv zeta.
    pose proof H2 as H3. apply inv_elim in H3; [|assumption|assumption]. destruct H3 as (A & B & C & D & F & G & I & J).
    destruct (Z.ltb_spec (n_max n) low) as [P|P].
    + exists (Node n l r). split; [reflexivity|]. split; [exact H2|]. split; [exact T2|]. split; [cbn; lia|].
      split; [apply from_refl|].
      assert (Q : forall x, below (n_max n) x -> post low high x).
      { intros x [Q1 Q2]. split; [lia|]. eapply Forall_impl; [|exact Q2]. cbn. intros i Hi. unfold overlaps.
        apply andb_false_iff. right. apply Z.leb_gt. lia. }
      split; [rewrite views_up by assumption; apply Forall_app; split; [|constructor; [apply Q; exact B|]]; eapply Forall_impl; try eassumption; exact Q|].
      split; [apply subseq_refl|]. intros Hlh K. specialize (Dw K). split; [exact Dw|].
      apply dense_up in Dw; [|assumption|assumption]. destruct Dw as [Dw _]. specialize (Dw P).
      eapply Forall_impl; [|exact Dw]. intros x Hx Hn. contradiction.
    + cbn [size] in Hf. destruct (IH l W I ltac:(lia)) as (l1 & El & Il & Ul & Sl & Fl & Pl & Bl & Dl). rewrite El.
      assert (Dw2 : low <= high -> dense shs low (Node n0 l r) -> dense shs low l1 /\ Forall (hollow_right high) (views shs l1) /\ dense shs low r).
      { intros Hlh K. specialize (Dw K). apply dense_up in Dw; [|assumption|assumption]. destruct Dw as (_ & Ka & Kb).
        destruct (Dl Hlh Ka). tauto. }
      set (n1 := set_ins (drop_overlaps (S (List.length (n_ins n))) low high [] (n_ins n)) n).
      assert (Hins : forall i, In i (n_ins n1) <-> In i (n_ins n) /\ overlaps i low high = false).
      { intros i. unfold n1. cbn [n_ins set_ins]. rewrite drop_spec by lia. cbn. tauto. }
      assert (Sn : incl (n_ins n1) (n_ins n)) by (intros i Hi; apply Hins; exact Hi).
      assert (T1 : n_ts n1 = List.length shs) by exact T2.
      assert (V1 : v_pos (view n1) = v_pos (view n) /\ v_id (view n1) = v_id (view n)) by (split; reflexivity).
      assert (I1 : inv shs (Node n1 l1 r)).
      { apply inv_intro; try assumption.
        - unfold core in *. cbn [v_ins v_pos view] in *. eapply incl_Forall; eassumption.
        - destruct B as [B1 B2]. split; [exact B1|]. eapply incl_Forall; eassumption.
        - eapply from_below; eassumption.
        - eapply from_klt_l; [exact Fl|exact F]. }
      assert (F1 : Forall (from (views shs (Node n l r))) (views shs (Node n1 l1 r))).
      { rewrite !views_up by assumption. apply Forall_app; split; [|constructor].
        - eapply from_mono; [|exact Fl]. intros x; rewrite in_app_iff; tauto.
        - exists (view n). split; [apply in_or_app; right; left; reflexivity|]. split; [reflexivity|]. split; [reflexivity|]. split; [exact Sn|reflexivity].
        - apply from_incl. intros x; rewrite in_app_iff; cbn; tauto. }
      assert (Nov : Forall (fun i => overlaps i low high = false) (n_ins n1)).
      { apply Forall_forall. intros i Hi. apply Hins. exact Hi. }
      assert (Rt : high < n_pos n1 -> Forall (post low high) (views shs r)).
      { intros Hh. pose proof (inv_core shs r J) as Cr. rewrite Forall_forall in *. intros x Hx.
        specialize (G x Hx). specialize (Cr x Hx). assert (Hp : high < v_pos x) by (unfold klt in G; cbn in G, Hh; lia).
        split; [lia|]. eapply Forall_impl; [|exact Cr]. cbn. intros i [Hi _]. unfold overlaps. apply andb_false_iff. left.
        apply Z.leb_gt. lia. }
      assert (Rh : high < n_pos n1 -> Forall (hollow_right high) (views shs r)).
      { intros Hh. eapply Forall_impl; [|exact G]. intros x Hx _. unfold klt in Hx. cbn in Hx, Hh. lia. }
      assert (R1 : subseq (refs shs (Node n1 l1 r)) (refs shs (Node n l r))).
      { unfold refs in *. rewrite !views_up by assumption. rewrite !map_app. apply subseq_app; [exact Bl|]. apply subseq_refl. }
      fold n1. change (n_pos n1) with (n_pos n). change (n_id n1) with (n_id n).
      destruct (n_ins n1) as [|i0 ins0] eqn:Ei.
      * destruct (remove_root shs n1 l1 r W T1 Ei I1) as (X & Y & Z). cbv zeta in X, Y, Z.
        change (n_pos n1) with (n_pos n) in X, Y, Z. change (n_id n1) with (n_id n) in X, Y, Z.
        set (t2 := remove shs (n_pos n) (n_id n) (Node n1 l1 r)) in *.
        pose proof (remove_root_from shs n1 l1 r t2 Z) as Fr.
        assert (S2 : (size t2 <= size l1 + size r)%nat).
        { rewrite <- !(views_length shs). destruct Z as [Z|(m & R & Z1 & Z2)]; [rewrite Z, app_length; lia|].
          rewrite Z2, Z1, !app_length. cbn. lia. }
        assert (F2 : Forall (from (views shs (Node n l r))) (views shs t2)).
        { eapply from_trans; [exact F1|]. eapply from_mono; [|exact Fr]. rewrite views_up by assumption.
          intros x. rewrite !in_app_iff. cbn. tauto. }
        assert (R2 : subseq (refs shs t2) (refs shs (Node n l r))).
        { eapply subseq_trans; [|exact R1]. unfold refs. rewrite (views_up shs n1) by assumption.
          destruct Z as [Z|(m & R & Z1 & Z2)].
          - rewrite Z, !map_app. apply subseq_app; [apply subseq_refl|]. apply sub_skip, subseq_refl.
          - rewrite Z2, Z1, !map_app. apply subseq_app; [apply subseq_refl|]. apply sub_keep. apply sub_skip, subseq_refl. }
        assert (Dt : low <= high -> dense shs low (Node n0 l r) -> dense shs low t2).
        { intros Hlh K. destruct (Dw2 Hlh K) as (K1 & K2 & K3). exact (dense_root shs low n1 l1 r W T1 Ei I1 P K1 K3). }
        destruct (Z.leb_spec (n_pos n) high).
        -- destruct (IH t2 W X ltac:(lia)) as (t3 & E3 & I3 & U3 & S3 & F3 & P3 & B3 & D3).
           exists t3. split; [exact E3|]. split; [exact I3|]. split; [exact U3|]. split; [cbn [size]; lia|].
           split; [eapply from_trans; eassumption|]. split; [exact P3|]. split; [eapply subseq_trans; eassumption|].
           intros Hlh K. apply D3; auto.
        -- exists t2. split; [reflexivity|]. split; [exact X|]. split; [exact Y|]. split; [cbn [size]; lia|]. split; [exact F2|].
           split; [eapply from_post; [exact Fr|]; apply Forall_app; split; [exact Pl|]; apply Rt; exact H|].
           split; [exact R2|]. intros Hlh K. split; [apply Dt; assumption|]. destruct (Dw2 Hlh K) as (K1 & K2 & K3).
           specialize (Rh H). destruct Z as [Z|(m & R & Z1 & Z2)].
           ++ rewrite Z. apply Forall_app; split; assumption.
           ++ rewrite Z2. rewrite Z1 in Rh, G. inversion Rh; subst. inversion G; subst.
              apply Forall_app; split; [assumption|]. constructor; [|assumption].
              intros _. change (high < v_pos m). match goal with Q : klt (view n) m |- _ => unfold klt in Q; cbn in Q; lia end.
      * destruct (Z.ltb_spec high (n_pos n)).
        -- exists (Node n1 l1 r). split; [reflexivity|]. split; [exact I1|]. split; [exact T1|]. split; [cbn [size]; lia|]. split; [exact F1|].
           split.
           { rewrite views_up by assumption. apply Forall_app; split; [exact Pl|]. constructor; [|apply Rt; assumption].
             split; [cbn; lia|]. cbn [v_ins view]. rewrite Ei. exact Nov. }
           split; [exact R1|]. intros Hlh K. destruct (Dw2 Hlh K) as (K1 & K2 & K3). split.
           ++ apply dense_up; try assumption. change (n_max n1) with (n_max n). split; [lia|tauto].
           ++ rewrite views_up by assumption. apply Forall_app; split; [assumption|]. constructor; [|apply Rh; assumption].
              intros Kk. cbn [v_ins view] in Kk. rewrite Ei in Kk. discriminate.
        -- destruct (IH r W J ltac:(lia)) as (r1 & Er & Ir & Ur & Sr & Fr & Pr & Br & Dr). rewrite Er.
           assert (I2 : inv shs (Node n1 l1 r1)).
           { eapply inv_replace_from; try eassumption. apply from_refl. }
           exists (Node n1 l1 r1). split; [reflexivity|]. split; [exact I2|]. split; [exact T1|]. split; [cbn [size]; lia|]. split; [|split; [|split]].
           ++ eapply from_trans; [exact F1|]. rewrite !views_up by assumption. apply Forall_app; split; [|constructor].
              ** apply from_incl. intros x; rewrite in_app_iff; tauto.
              ** exists (view n1). split; [apply in_or_app; right; left; reflexivity|]. repeat split. apply incl_refl.
              ** eapply from_mono; [|exact Fr]. intros x; rewrite in_app_iff; cbn; tauto.
           ++ rewrite views_up by assumption. apply Forall_app; split; [exact Pl|]. constructor; [|exact Pr].
              split; [|cbn [v_ins view]; rewrite Ei; exact Nov]. left. cbn [v_pos view].
              apply inv_elim in I1; [|assumption|assumption]. destruct I1 as (A1 & _).
              unfold core in A1. cbn [v_ins v_pos view] in A1. rewrite Ei in A1. inversion A1 as [|? ? [Q1 Q2] _]; subst.
              inversion Nov as [|? ? Q3 _]; subst. unfold overlaps in Q3. apply andb_false_iff in Q3.
              change (n_pos n1) with (n_pos n) in *. destruct Q3 as [Q3|Q3]; apply Z.leb_gt in Q3; lia.
           ++ eapply subseq_trans; [|exact R1]. unfold refs in *. rewrite !views_up by assumption. rewrite !map_app.
              apply subseq_app; [apply subseq_refl|]. apply sub_keep. exact Br.
           ++ intros Hlh K. destruct (Dw2 Hlh K) as (K1 & K2 & K3). destruct (Dr Hlh K3) as (K4 & K5). split.
              ** apply dense_up; try assumption. change (n_max n1) with (n_max n). split; [lia|tauto].
              ** rewrite views_up by assumption. apply Forall_app; split; [assumption|]. constructor; [|assumption].
                 intros Kk. cbn [v_ins view] in Kk. rewrite Ei in Kk. discriminate.
Qed.

End P.
