(** Proofs about the lazylog interval tree. *)
From Coq Require Import ZArith Lia.
From Verif Require Import Base Model_Interval Spec_Interval.
Local Open Scope Z_scope.

Section P.
Context {V : Type}.
Notation tree := (tree V).
Notation nd := (nd V).
Notation ival := (ival V).

(** ** Shifts *)
Definition wf_shs (shs : list shift) : Prop := forall j s, nth_error shs j = Some s -> sh_ts s = S j.

Definition fold_sh (l r : tree) (ss : list shift) (n : nd) : nd :=
  fold_left (fun n s => apply_shift s n l r) ss n.

Lemma wf_skipn : forall shs a j s, wf_shs shs -> nth_error (skipn a shs) j = Some s -> sh_ts s = S (a + j).
Proof.
  intros shs a j s H E. apply H. revert shs H E. induction a; intros shs H E; [exact E|].
  destruct shs as [|x shs]; [destruct j; discriminate|]. cbn [skipn] in E. cbn [Nat.add nth_error].
  revert E. clear. revert shs j. induction a; intros shs j E; [exact E|].
  destruct shs; [destruct j; discriminate|]. cbn [skipn] in E. cbn [Nat.add nth_error]. apply IHa. exact E.
Qed.

Lemma apply_shift_ts : forall s (n : nd) l r, (n_ts n < sh_ts s)%nat -> n_ts (apply_shift s n l r) = sh_ts s.
Proof.
  intros. unfold apply_shift. destruct (sh_ts s <=? n_ts n)%nat eqn:E; [apply Nat.leb_le in E; lia|].
  cbn [n_ts n_max set_ts]. destruct (n_max n <? sh_idx s); [reflexivity|].
  cbn. destruct (sh_idx s <=? n_pos n); reflexivity.
Qed.

Lemma fold_sh_ts : forall l r ss (n : nd),
  (forall j s, nth_error ss j = Some s -> sh_ts s = S (n_ts n + j)) ->
  n_ts (fold_sh l r ss n) = (n_ts n + List.length ss)%nat.
Proof.
  induction ss; intros n H; cbn; [lia|].
  assert (E : sh_ts a = S (n_ts n + 0)) by (apply (H 0%nat); reflexivity).
  assert (E2 : n_ts (apply_shift a n l r) = S (n_ts n)) by (rewrite apply_shift_ts; lia).
  change (n_ts (fold_sh l r ss (apply_shift a n l r)) = (n_ts n + S (List.length ss))%nat).
  rewrite IHss; rewrite E2; [lia|]. intros j s Hj. rewrite (H (S j) s Hj). lia.
Qed.

Lemma shift_start_spec : forall shs ts j, wf_shs shs -> (j < List.length shs)%nat -> (ts <= j)%nat ->
  shift_start ts shs j = (if (2 <=? ts)%nat then ts else 0)%nat.
Proof.
  induction j; intros W Hj Ht; cbn [shift_start].
  - destruct (Nat.leb_spec 2 ts); lia.
  - destruct (nth_error shs (S j)) as [s|] eqn:E; [|apply nth_error_None in E; lia].
    rewrite (W _ _ E). destruct (Nat.leb_spec (S (S j)) ts); [lia|].
    destruct (Nat.eq_dec ts (S j)) as [->|].
    + clear IHj. destruct j as [|j]; [reflexivity|]. cbn [shift_start].
      destruct (nth_error shs (S j)) as [s'|] eqn:E'; [|apply nth_error_None in E'; lia].
      rewrite (W _ _ E'). rewrite Nat.leb_refl. reflexivity.
    + apply IHj; try assumption; lia.
Qed.

Lemma apply_shifts_eq : forall shs (n : nd) l r, wf_shs shs -> (n_ts n <= List.length shs)%nat ->
  apply_shifts shs n l r = fold_sh l r (skipn (n_ts n) shs) n.
Proof.
  intros shs n l r W Ht. unfold apply_shifts.
  destruct (rev shs) as [|s rs] eqn:E.
  - assert (shs = []) by (rewrite <- (rev_involutive shs), E; reflexivity). subst. destruct (n_ts n); reflexivity.
  - assert (Es : shs = rev rs ++ [s]) by (rewrite <- (rev_involutive shs), E; reflexivity).
    assert (Hl : List.length shs = S (List.length rs)) by (rewrite Es, app_length, rev_length; cbn; lia).
    assert (Hs : sh_ts s = S (List.length rs)).
    { apply W. rewrite Es. rewrite nth_error_app2; rewrite rev_length; [|lia]. rewrite Nat.sub_diag. reflexivity. }
    rewrite Hs. destruct (Nat.leb_spec (S (List.length rs)) (n_ts n)).
    + rewrite skipn_all2; [reflexivity|lia].
    + rewrite shift_start_spec; try assumption; try lia.
      destruct (Nat.leb_spec 2 (n_ts n)); [reflexivity|].
      destruct (n_ts n) as [|[|?]] eqn:Et; [reflexivity| |lia].
      destruct shs as [|s0 shs]; [reflexivity|]. cbn [skipn].
      unfold fold_sh. cbn [fold_left]. f_equal. unfold apply_shift.
      rewrite (W 0%nat s0 eq_refl), Et. reflexivity.
Qed.

Lemma sync_ts : forall shs (n : nd) l r, wf_shs shs -> (n_ts n <= List.length shs)%nat ->
  n_ts (apply_shifts shs n l r) = List.length shs.
Proof.
  intros. rewrite apply_shifts_eq by assumption. rewrite fold_sh_ts.
  - rewrite skipn_length. lia.
  - intros j s Hj. apply (wf_skipn shs); assumption.
Qed.

Lemma apply_id : forall shs (n : nd) l r, wf_shs shs -> n_ts n = List.length shs -> apply_shifts shs n l r = n.
Proof. intros. rewrite apply_shifts_eq by (auto; lia). rewrite skipn_all2 by lia. reflexivity. Qed.

Lemma apply_shift_same : forall s (n : nd) l r,
  n_ref (apply_shift s n l r) = n_ref n /\ n_id (apply_shift s n l r) = n_id n.
Proof.
  intros. unfold apply_shift. destruct (_ <=? _)%nat; [auto|]. cbn. destruct (_ <? _); [auto|].
  cbn. destruct (_ <=? _); auto.
Qed.

(** ** The nodes of a tree, with all their pending shifts *)
Definition vw : Type := nat * Z * Z * list ival.      (* reference, position, id, intervals *)
Definition v_ref (x : vw) : nat := let '(r, _, _, _) := x in r.
Definition v_pos (x : vw) : Z := let '(_, p, _, _) := x in p.
Definition v_id (x : vw) : Z := let '(_, _, i, _) := x in i.
Definition v_ins (x : vw) : list ival := let '(_, _, _, l) := x in l.
Definition view (n : nd) : vw := (n_ref n, n_pos n, n_id n, n_ins n).

Fixpoint views (shs : list shift) (t : tree) : list vw :=
  match t with
  | Leaf => []
  | Node n l r => views shs l ++ view (apply_shifts shs n l r) :: views shs r
  end.

Definition klt (x y : vw) : Prop := v_pos x < v_pos y \/ (v_pos x = v_pos y /\ v_id x < v_id y).
Definition below (m : Z) (x : vw) : Prop := v_pos x <= m /\ Forall (fun i => iv_high i <= m) (v_ins x).
Definition core (x : vw) : Prop := Forall (fun i => iv_low i = v_pos x /\ iv_low i <= iv_high i) (v_ins x).

Fixpoint inv (shs : list shift) (t : tree) : Prop :=
  match t with
  | Leaf => True
  | Node n l r =>
      let n' := apply_shifts shs n l r in
      (n_ts n <= List.length shs)%nat /\ n_pos n <= n_max n /\ core (view n') /\ below (n_max n') (view n') /\
      Forall (below (n_max n')) (views shs l) /\ Forall (below (n_max n')) (views shs r) /\
      Forall (fun x => klt x (view n')) (views shs l) /\ Forall (klt (view n')) (views shs r) /\
      inv shs l /\ inv shs r
  end.

Definition up (shs : list shift) (t : tree) : Prop :=
  match t with Leaf => True | Node n _ _ => n_ts n = List.length shs end.

Lemma klt_trans : forall x y z, klt x y -> klt y z -> klt x z.
Proof. unfold klt. intros. lia. Qed.
Lemma klt_irrefl : forall x, ~ klt x x.
Proof. unfold klt. intros. lia. Qed.
Lemma below_mono : forall m m' x, m <= m' -> below m x -> below m' x.
Proof.
  intros m m' x H [H1 H2]. split; [lia|]. eapply Forall_impl; [|exact H2]. cbn. intros. lia.
Qed.
Lemma Forall_below_mono : forall m m' l, m <= m' -> Forall (below m) l -> Forall (below m') l.
Proof. intros. eapply Forall_impl; [|eassumption]. intros. eapply below_mono; eassumption. Qed.

Lemma ins_high_spec : forall ins h, fold_left (fun h (i : ival) => if h <? iv_high i then iv_high i else h) ins h >= h /\
  Forall (fun i => iv_high i <= fold_left (fun h (i : ival) => if h <? iv_high i then iv_high i else h) ins h) ins.
Proof.
  induction ins; intros h; cbn [fold_left]; [split; [lia|constructor]|].
  destruct (IHins (if h <? iv_high a then iv_high a else h)) as [A B].
  destruct (Z.ltb_spec h (iv_high a)).
  - split; [lia|]. constructor; [lia|exact B].
  - split; [lia|]. constructor; [lia|exact B].
Qed.
Lemma ins_high_all : forall ins, Forall (fun i : ival => iv_high i <= ins_high ins) ins.
Proof. intros. apply (proj2 (ins_high_spec ins 0)). Qed.

Lemma max_with_ge : forall (t : tree) m, m <= max_with t m.
Proof. destruct t; cbn; lia. Qed.
Lemma max_with_child : forall c l r m, n_max c <= max_with (Node c l r : tree) m.
Proof. intros; cbn; lia. Qed.

Lemma update_max_spec : forall (n : nd) l r,
  view (update_max n l r) = view n /\ n_ts (update_max n l r) = n_ts n /\ n_max n <= n_max (update_max n l r) /\
  Forall (fun i => iv_high i <= n_max (update_max n l r)) (n_ins n) /\
  (forall c cl cr, l = Node c cl cr -> n_max c <= n_max (update_max n l r)) /\
  (forall c cl cr, r = Node c cl cr -> n_max c <= n_max (update_max n l r)).
Proof.
  intros n l r. unfold update_max. cbn [n_ts n_max set_max].
  pose proof (max_with_ge r (n_max n)) as A. pose proof (max_with_ge l (max_with r (n_max n))) as B.
  refine (conj eq_refl (conj eq_refl (conj _ (conj _ (conj _ _))))).
  - lia.
  - eapply Forall_impl; [|apply ins_high_all]. cbn. intros. lia.
  - intros c cl cr ->. pose proof (max_with_child c cl cr (max_with r (n_max n))). lia.
  - intros c cl cr ->. pose proof (max_with_child c cl cr (n_max n)). lia.
Qed.

Lemma inv_intro : forall shs (n : nd) l r, wf_shs shs -> n_ts n = List.length shs ->
  core (view n) -> below (n_max n) (view n) ->
  Forall (below (n_max n)) (views shs l) -> Forall (below (n_max n)) (views shs r) ->
  Forall (fun x => klt x (view n)) (views shs l) -> Forall (klt (view n)) (views shs r) ->
  inv shs l -> inv shs r -> inv shs (Node n l r).
Proof.
  intros. cbn [inv]. rewrite apply_id by assumption. split; [lia|]. pose proof (proj1 H2) as B. cbn in B. tauto.
Qed.
Lemma inv_elim : forall shs (n : nd) l r, wf_shs shs -> n_ts n = List.length shs -> inv shs (Node n l r) ->
  core (view n) /\ below (n_max n) (view n) /\
  Forall (below (n_max n)) (views shs l) /\ Forall (below (n_max n)) (views shs r) /\
  Forall (fun x => klt x (view n)) (views shs l) /\ Forall (klt (view n)) (views shs r) /\
  inv shs l /\ inv shs r.
Proof. intros shs n l r W Ht H. cbn [inv] in H. rewrite apply_id in H by assumption. tauto. Qed.
Lemma views_up : forall shs (n : nd) l r, wf_shs shs -> n_ts n = List.length shs ->
  views shs (Node n l r) = views shs l ++ view n :: views shs r.
Proof. intros. cbn [views]. rewrite apply_id by assumption. reflexivity. Qed.

Lemma inv_ts : forall shs (n : nd) l r, inv shs (Node n l r) -> (n_ts n <= List.length shs)%nat.
Proof. cbn. intros. tauto. Qed.

Lemma sync_spec : forall shs t, wf_shs shs -> inv shs t ->
  inv shs (sync shs t) /\ up shs (sync shs t) /\ views shs (sync shs t) = views shs t.
Proof.
  intros shs [|n l r] W H; [cbn; auto|]. cbn [sync].
  pose proof (sync_ts shs n l r W (inv_ts _ _ _ _ H)) as T.
  split; [|split].
  - cbn [inv] in *. rewrite (apply_id shs (apply_shifts shs n l r)) by assumption.
    destruct H as (_ & _ & A & [B B'] & H). split; [lia|]. split; [exact B|]. unfold below at 1. tauto.
  - exact T.
  - cbn [views]. rewrite (apply_id shs (apply_shifts shs n l r)) by assumption. reflexivity.
Qed.
(** a node as seen after apply_shifts *)
Lemma node_sync : forall shs (n : nd) l r, wf_shs shs -> inv shs (Node n l r) ->
  inv shs (Node (apply_shifts shs n l r) l r) /\ n_ts (apply_shifts shs n l r) = List.length shs /\
  views shs (Node (apply_shifts shs n l r) l r) = views shs (Node n l r).
Proof. intros. pose proof (sync_spec shs (Node n l r) H H0). exact H1. Qed.

(** raising the maximum, changing the height *)
Lemma inv_raise : forall shs (n n2 : nd) l r, wf_shs shs -> n_ts n = List.length shs -> n_ts n2 = List.length shs ->
  view n2 = view n -> n_max n <= n_max n2 -> inv shs (Node n l r) -> inv shs (Node n2 l r).
Proof.
  intros shs n n2 l r W T T2 Hv Hm H. apply inv_elim in H; [|assumption|assumption].
  destruct H as (A & B & C & D & E & F & G & I).
  apply inv_intro; try assumption; rewrite ?Hv; try assumption.
  - eapply below_mono; eassumption.
  - eapply Forall_below_mono; eassumption.
  - eapply Forall_below_mono; eassumption.
Qed.

Lemma recalc_spec : forall (n : nd) l r, view (recalc n l r) = view n /\ n_ts (recalc n l r) = n_ts n /\ n_max (recalc n l r) = n_max n.
Proof. intros. auto. Qed.

(** a node whose maximum may not cover its children yet *)
Definition loose (shs : list shift) (n : nd) (l r : tree) : Prop :=
  n_ts n = List.length shs /\ core (view n) /\ n_pos n <= n_max n /\
  (Forall (below (n_max n)) (views shs l) \/ up shs l) /\ (Forall (below (n_max n)) (views shs r) \/ up shs r) /\
  Forall (fun x => klt x (view n)) (views shs l) /\ Forall (klt (view n)) (views shs r) /\
  inv shs l /\ inv shs r.

Lemma inv_loose : forall shs (n : nd) l r, wf_shs shs -> n_ts n = List.length shs -> inv shs (Node n l r) -> loose shs n l r.
Proof.
  intros shs n l r W T H. apply inv_elim in H; [|assumption|assumption]. destruct H as (A & [B _] & C & D & E & F & G & I).
  unfold loose. cbn in B. tauto.
Qed.

Lemma up_below : forall shs c m, wf_shs shs -> up shs c -> inv shs c ->
  (forall n l r, c = Node n l r -> n_max n <= m) -> Forall (below m) (views shs c).
Proof.
  intros shs [|n l r] m W U H K; [constructor|]. cbn [up] in U.
  apply inv_elim in H; [|assumption|assumption]. destruct H as (A & B & C & D & _).
  specialize (K n l r eq_refl). rewrite views_up by assumption.
  apply Forall_app; split; [|constructor]; try (eapply Forall_below_mono; eassumption). eapply below_mono; eassumption.
Qed.

Lemma refit : forall shs (n : nd) l r, wf_shs shs -> loose shs n l r ->
  let n2 := update_max (recalc n l r) l r in
  inv shs (Node n2 l r) /\ n_ts n2 = List.length shs /\ view n2 = view n.
Proof.
  intros shs n l r W (T & A & B & C & D & E & F & G & I) n2.
  pose proof (update_max_spec (recalc n l r) l r) as U. fold n2 in U.
  destruct U as (U1 & U2 & U3 & U4 & U5 & U6). destruct (recalc_spec n l r) as (R1 & R2 & R3).
  assert (T2 : n_ts n2 = List.length shs) by (rewrite U2, R2; exact T).
  assert (V2 : view n2 = view n) by (rewrite U1; exact R1).
  assert (M : n_max n <= n_max n2) by exact U3.
  split; [|auto]. apply inv_intro; try assumption; rewrite ?V2; try assumption.
  - split; [change (n_pos n <= n_max n2); lia|]. exact U4.
  - destruct C as [C|C]; [eapply Forall_below_mono; eassumption|]. apply up_below; assumption.
  - destruct D as [D|D]; [eapply Forall_below_mono; eassumption|]. apply up_below; assumption.
Qed.

Lemma rotate_left_spec : forall shs (n : nd) l r t', wf_shs shs -> n_ts n = List.length shs -> inv shs (Node n l r) ->
  rotate_left shs (Node n l r) = Some t' ->
  inv shs t' /\ up shs t' /\ views shs t' = views shs (Node n l r).
Proof.
  intros shs n l r t' W T H E. unfold rotate_left in E. rewrite apply_id in E by assumption.
  apply inv_elim in H; [|assumption|assumption]. destruct H as (A & B & C & D & F & G & I & J).
  pose proof (sync_spec shs r W J) as (Js & Us & Vs).
  destruct (sync shs r) as [|m rl rr]; [discriminate|]. injection E as <-.
  cbn [up] in Us. apply inv_elim in Js; [|assumption|assumption].
  destruct Js as (A2 & B2 & C2 & D2 & F2 & G2 & I2 & J2).
  rewrite views_up in Vs by assumption. rewrite <- Vs in D, G.
  apply Forall_app in D. destruct D as [Da Db]. inversion Db as [|? ? Db1 Db2]; subst; clear Db.
  apply Forall_app in G. destruct G as [Ga Gb]. inversion Gb as [|? ? Gb1 Gb2]; subst; clear Gb.
  set (n2 := update_max (recalc n l rl) l rl).
  destruct (update_max_spec (recalc n l rl) l rl) as (U1 & U2 & U3 & _). fold n2 in U1, U2, U3.
  assert (T2 : n_ts n2 = List.length shs) by (rewrite U2; exact T).
  assert (V2 : view n2 = view n) by (rewrite U1; reflexivity).
  assert (M2 : n_max n <= n_max n2) by exact U3.
  assert (IL : inv shs (Node n2 l rl)).
  { apply inv_intro; try assumption; rewrite ?V2; try assumption.
    - eapply below_mono; eassumption.
    - eapply Forall_below_mono; eassumption.
    - eapply Forall_below_mono; eassumption. }
  set (left := Node n2 l rl) in *. set (m2 := update_max (recalc m left rr) left rr).
  destruct (update_max_spec (recalc m left rr) left rr) as (U4 & U5 & U6 & _ & U7 & _). fold m2 in U4, U5, U6, U7.
  assert (T3 : n_ts m2 = List.length shs) by (rewrite U5; exact Us).
  assert (V3 : view m2 = view m) by (rewrite U4; reflexivity).
  assert (M3 : n_max n2 <= n_max m2) by (eapply U7; reflexivity).
  assert (EL : views shs left = views shs l ++ view n :: views shs rl).
  { unfold left. rewrite views_up by assumption. rewrite V2. reflexivity. }
  split; [|split].
  - apply inv_intro; try assumption; rewrite ?V3, ?EL; try assumption.
    + eapply below_mono; [|exact Db1]. lia.
    + apply Forall_app; split; [|constructor].
      * eapply Forall_below_mono; [|exact C]. lia.
      * eapply below_mono; [|exact B]. lia.
      * eapply Forall_below_mono; [|exact Da]. lia.
    + eapply Forall_below_mono; [|exact Db2]. lia.
    + apply Forall_app; split; [|constructor; assumption].
      eapply Forall_impl; [|exact F]. intros x Hx. exact (klt_trans _ _ _ Hx Gb1).
  - exact T3.
  - rewrite views_up by assumption. rewrite V3, EL. rewrite views_up by assumption. rewrite <- Vs.
    rewrite <- app_assoc. reflexivity.
Qed.

Lemma rotate_right_spec : forall shs (n : nd) l r t', wf_shs shs -> n_ts n = List.length shs -> inv shs (Node n l r) ->
  rotate_right shs (Node n l r) = Some t' ->
  inv shs t' /\ up shs t' /\ views shs t' = views shs (Node n l r).
Proof.
  intros shs n l r t' W T H E. unfold rotate_right in E. rewrite apply_id in E by assumption.
  apply inv_elim in H; [|assumption|assumption]. destruct H as (A & B & C & D & F & G & I & J).
  pose proof (sync_spec shs l W I) as (Js & Us & Vs).
  destruct (sync shs l) as [|m ll lr]; [discriminate|]. injection E as <-.
  cbn [up] in Us. apply inv_elim in Js; [|assumption|assumption].
  destruct Js as (A2 & B2 & C2 & D2 & F2 & G2 & I2 & J2).
  rewrite views_up in Vs by assumption. rewrite <- Vs in C, F.
  apply Forall_app in C. destruct C as [Da Db]. inversion Db as [|? ? Db1 Db2]; subst; clear Db.
  apply Forall_app in F. destruct F as [Ga Gb]. inversion Gb as [|? ? Gb1 Gb2]; subst; clear Gb.
  set (n2 := update_max (recalc n lr r) lr r).
  destruct (update_max_spec (recalc n lr r) lr r) as (U1 & U2 & U3 & _). fold n2 in U1, U2, U3.
  assert (T2 : n_ts n2 = List.length shs) by (rewrite U2; exact T).
  assert (V2 : view n2 = view n) by (rewrite U1; reflexivity).
  assert (M2 : n_max n <= n_max n2) by exact U3.
  assert (IL : inv shs (Node n2 lr r)).
  { apply inv_intro; try assumption; rewrite ?V2; try assumption.
    - eapply below_mono; eassumption.
    - eapply Forall_below_mono; eassumption.
    - eapply Forall_below_mono; eassumption. }
  set (right := Node n2 lr r) in *. set (m2 := update_max (recalc m ll right) ll right).
  destruct (update_max_spec (recalc m ll right) ll right) as (U4 & U5 & U6 & _ & _ & U7). fold m2 in U4, U5, U6, U7.
  assert (T3 : n_ts m2 = List.length shs) by (rewrite U5; exact Us).
  assert (V3 : view m2 = view m) by (rewrite U4; reflexivity).
  assert (M3 : n_max n2 <= n_max m2) by (eapply U7; reflexivity).
  assert (EL : views shs right = views shs lr ++ view n :: views shs r).
  { unfold right. rewrite views_up by assumption. rewrite V2. reflexivity. }
  split; [|split].
  - apply inv_intro; try assumption; rewrite ?V3, ?EL; try assumption.
    + eapply below_mono; [|exact Db1]. lia.
    + eapply Forall_below_mono; [|exact Da]. lia.
    + apply Forall_app; split; [|constructor].
      * eapply Forall_below_mono; [|exact Db2]. lia.
      * eapply below_mono; [|exact B]. lia.
      * eapply Forall_below_mono; [|exact D]. lia.
    + apply Forall_app; split; [assumption|]. constructor; [assumption|].
      eapply Forall_impl; [|exact G]. intros x Hx. exact (klt_trans _ _ _ Gb1 Hx).
  - exact T3.
  - rewrite views_up by assumption. rewrite V3, EL. rewrite views_up by assumption. rewrite <- Vs.
    rewrite <- app_assoc. reflexivity.
Qed.

Lemma or_self_spec : forall shs (o : option tree) t,
  (forall t', o = Some t' -> inv shs t' /\ up shs t' /\ views shs t' = views shs t) ->
  inv shs t -> up shs t ->
  inv shs (or_self o t) /\ up shs (or_self o t) /\ views shs (or_self o t) = views shs t.
Proof. intros shs [t'|] t H I U; cbn; [apply H; reflexivity|auto]. Qed.

(** replacing a child by one with the same nodes *)
Lemma inv_replace : forall shs (n : nd) l r l' r', wf_shs shs -> n_ts n = List.length shs -> inv shs (Node n l r) ->
  inv shs l' -> inv shs r' -> incl (views shs l') (views shs l) -> incl (views shs r') (views shs r) ->
  inv shs (Node n l' r').
Proof.
  intros shs n l r l' r' W T H Il Ir Sl Sr. apply inv_elim in H; [|assumption|assumption].
  destruct H as (A & B & C & D & E & F & G & I).
  apply inv_intro; try assumption.
  - eapply incl_Forall; eassumption.
  - eapply incl_Forall; eassumption.
  - eapply incl_Forall; eassumption.
  - eapply incl_Forall; eassumption.
Qed.

Lemma rebalance_spec : forall shs (n : nd) l r, wf_shs shs -> loose shs n l r ->
  inv shs (rebalance shs (Node n l r)) /\ up shs (rebalance shs (Node n l r)) /\
  views shs (rebalance shs (Node n l r)) = views shs (Node n l r).
Proof.
  intros shs n l r W H. unfold rebalance. cbv zeta. pose proof (proj1 H) as T.
  destruct (refit shs n l r W H) as (H2 & T2 & V2). cbv zeta in *.
  set (n2 := update_max (recalc n l r) l r) in *.
  assert (E2 : views shs (Node n2 l r) = views shs (Node n l r)).
  { rewrite !views_up by assumption. rewrite V2. reflexivity. }
  destruct (height l + 2 <=? height r)%nat.
  - set (r2 := if (height_right r <? height_left r)%nat then or_self (rotate_right shs r) r else r).
    assert (K : inv shs r2 /\ views shs r2 = views shs r).
    { unfold r2. destruct (height_right r <? height_left r)%nat.
      - pose proof H2 as H3. apply inv_elim in H3; [|assumption|assumption]. destruct H3 as (_ & _ & _ & _ & _ & _ & _ & Ir).
        destruct (rotate_right shs r) as [r3|] eqn:Er; [|cbn; auto]. cbn [or_self].
        destruct r as [|m rl rr]; [discriminate|].
        pose proof (node_sync shs m rl rr W Ir) as (S1 & S2 & S3).
        assert (Er' : rotate_right shs (Node (apply_shifts shs m rl rr) rl rr) = Some r3).
        { unfold rotate_right in *. rewrite (apply_id shs (apply_shifts shs m rl rr)) by assumption. exact Er. }
        destruct (rotate_right_spec shs _ _ _ _ W S2 S1 Er') as (X & Y & Z). split; [exact X|]. rewrite Z. exact S3.
      - apply inv_elim in H2; [|assumption|assumption]. tauto. }
    destruct K as [K1 K2].
    assert (H3 : inv shs (Node n2 l r2)).
    { eapply inv_replace; try eassumption; [|apply incl_refl|rewrite K2; apply incl_refl].
      apply inv_elim in H2; tauto. }
    destruct (or_self_spec shs (rotate_left shs (Node n2 l r2)) (Node n2 l r2)) as (X & Y & Z).
    + intros t' Et. eapply rotate_left_spec; eassumption.
    + exact H3.
    + exact T2.
    + split; [exact X|]. split; [exact Y|]. rewrite Z, <- E2. rewrite !views_up by assumption. rewrite K2. reflexivity.
  - destruct (height r + 2 <=? height l)%nat; [|split; [exact H2|split; [exact T2|exact E2]]].
    set (l2 := if (height_left l <? height_right l)%nat then or_self (rotate_left shs l) l else l).
    assert (K : inv shs l2 /\ views shs l2 = views shs l).
    { unfold l2. destruct (height_left l <? height_right l)%nat.
      - pose proof H2 as H3. apply inv_elim in H3; [|assumption|assumption]. destruct H3 as (_ & _ & _ & _ & _ & _ & Il & _).
        destruct (rotate_left shs l) as [l3|] eqn:Er; [|cbn; auto]. cbn [or_self].
        destruct l as [|m ll lr]; [discriminate|].
        pose proof (node_sync shs m ll lr W Il) as (S1 & S2 & S3).
        assert (Er' : rotate_left shs (Node (apply_shifts shs m ll lr) ll lr) = Some l3).
        { unfold rotate_left in *. rewrite (apply_id shs (apply_shifts shs m ll lr)) by assumption. exact Er. }
        destruct (rotate_left_spec shs _ _ _ _ W S2 S1 Er') as (X & Y & Z). split; [exact X|]. rewrite Z. exact S3.
      - apply inv_elim in H2; [|assumption|assumption]. tauto. }
    destruct K as [K1 K2].
    assert (H3 : inv shs (Node n2 l2 r)).
    { eapply inv_replace; try eassumption; [|rewrite K2; apply incl_refl|apply incl_refl].
      apply inv_elim in H2; tauto. }
    destruct (or_self_spec shs (rotate_right shs (Node n2 l2 r)) (Node n2 l2 r)) as (X & Y & Z).
    + intros t' Et. eapply rotate_right_spec; eassumption.
    + exact H3.
    + exact T2.
    + split; [exact X|]. split; [exact Y|]. rewrite Z, <- E2. rewrite !views_up by assumption. rewrite K2. reflexivity.
Qed.

(** ** Keys, search, add *)
Lemma key_compare_spec : forall p i p' i',
  match key_compare p i p' i' with
  | Lt => p < p' \/ (p = p' /\ i < i')
  | Gt => p' < p \/ (p' = p /\ i' < i)
  | Eq => p = p' /\ i = i'
  end.
Proof.
  intros. unfold key_compare.
  destruct (Z.ltb_spec p p'); [lia|]. destruct (Z.ltb_spec p' p); [lia|].
  destruct (Z.ltb_spec i i'); [lia|]. destruct (Z.ltb_spec i' i); lia.
Qed.

Definition same_key (p i : Z) (x : vw) : Prop := v_pos x = p /\ v_id x = i.

Definition added_view (shs : list shift) (ref : nat) (pos id : Z) (v : ival) (t t' : tree) (h : nat) : Prop :=
  (exists A x B, views shs t = A ++ x :: B /\ same_key pos id x /\ h = v_ref x /\
     views shs t' = A ++ (v_ref x, pos, id, v_ins x ++ [v]) :: B) \/
  (exists A B, views shs t = A ++ B /\ h = ref /\ views shs t' = A ++ (ref, pos, id, [v]) :: B /\
     Forall (fun x => ~ same_key pos id x) (views shs t)).

Lemma added_key : forall shs ref pos id v t t' h P, added_view shs ref pos id v t t' h ->
  Forall P (views shs t) -> (forall x y, v_pos x = v_pos y -> v_id x = v_id y -> P x -> P y) ->
  (forall y, same_key pos id y -> P y) -> Forall P (views shs t').
Proof.
  intros shs ref pos id v t t' h P [(A & x & B & E & K & _ & E')|(A & B & E & _ & E' & _)] F HP HN.
  - rewrite E' . rewrite E in F. apply Forall_app in F. destruct F as [F1 F2]. inversion F2; subst.
    apply Forall_app; split; [assumption|]. constructor; [|assumption]. apply HN. split; reflexivity.
  - rewrite E'. rewrite E in F. apply Forall_app in F. destruct F as [F1 F2].
    apply Forall_app; split; [assumption|]. constructor; [|assumption]. apply HN. split; reflexivity.
Qed.

Lemma add_spec : forall shs ref pos id v t t' h, wf_shs shs -> inv shs t ->
  iv_low v = pos -> iv_low v <= iv_high v ->
  add shs (List.length shs) ref pos id v t = (t', h) ->
  inv shs t' /\ up shs t' /\ added_view shs ref pos id v t t' h.
Proof.
  induction t as [|n l IHl r IHr]; intros t' h W H Ev Hv E; cbn [add] in E.
  - apply pair_equal_spec in E; destruct E as [<- <-]. split; [|split].
    + apply inv_intro; try assumption; try constructor; try reflexivity; cbn; try constructor; try constructor; try lia; auto.
    + reflexivity.
    + right. exists [], []. rewrite views_up by (auto; reflexivity). repeat split. constructor.
  - destruct (node_sync shs n l r W H) as (H2 & T2 & V2).
    assert (V3 : forall t'' h', added_view shs ref pos id v (Node (apply_shifts shs n l r) l r) t'' h' -> added_view shs ref pos id v (Node n l r) t'' h').
    { unfold added_view. rewrite V2. auto. }
    set (m := apply_shifts shs n l r) in *. clearbody m. clear H V2.
    pose proof H2 as H3. apply inv_elim in H3; [|assumption|assumption]. destruct H3 as (A & [B B'] & C & D & F & G & I & J).
    pose proof (key_compare_spec pos id (n_pos m) (n_id m)) as K.
    destruct (key_compare pos id (n_pos m) (n_id m)).
    + apply pair_equal_spec in E; destruct E as [<- <-]. destruct K as [K1 K2].
      set (m2 := set_ts (List.length shs) (set_ins (n_ins m ++ [v]) m)).
      assert (L : loose shs m2 l r).
      { unfold loose. refine (conj eq_refl (conj _ (conj B (conj (or_introl C) (conj (or_introl D) (conj _ (conj _ (conj I J)))))))).
        - unfold core in *. cbn in *. apply Forall_app; split; [exact A|]. constructor; [|constructor]. split; [congruence|exact Hv].
        - exact F.
        - exact G. }
      destruct (rebalance_spec shs m2 l r W L) as (X & Y & Z). split; [exact X|]. split; [exact Y|].
      apply V3. left. exists (views shs l), (view m), (views shs r). rewrite views_up by assumption.
      rewrite Z. rewrite views_up by (auto; reflexivity). unfold same_key. cbn. rewrite K1, K2. auto.
    + destruct (add shs (List.length shs) ref pos id v l) as [l2 h2] eqn:El. apply pair_equal_spec in E; destruct E as [<- <-].
      destruct (IHl l2 h2 W I Ev Hv eq_refl) as (X & Y & Z).
      assert (L : loose shs m l2 r).
      { unfold loose. refine (conj T2 (conj A (conj B (conj (or_intror Y) (conj (or_introl D) (conj _ (conj G (conj X J)))))))).
        eapply added_key; [exact Z|exact F| |]; unfold klt, same_key; cbn; intros; lia. }
      destruct (rebalance_spec shs m l2 r W L) as (X' & Y' & Z'). split; [exact X'|]. split; [exact Y'|].
      apply V3. unfold added_view. rewrite Z', !views_up by assumption.
      destruct Z as [(A1 & x & B1 & E1 & K1 & K2 & E2)|(A1 & B1 & E1 & K2 & E2 & E3)].
      * left. exists A1, x, (B1 ++ view m :: views shs r). rewrite E1, E2. rewrite <- !app_assoc. cbn. auto.
      * right. exists A1, (B1 ++ view m :: views shs r). rewrite E1, E2. rewrite <- !app_assoc. cbn.
        refine (conj eq_refl (conj K2 (conj eq_refl _))). rewrite app_assoc, <- E1. apply Forall_app; split; [exact E3|].
        constructor; [unfold same_key; cbn; lia|]. eapply Forall_impl; [|exact G]. unfold klt, same_key. cbn. intros. lia.
    + destruct (add shs (List.length shs) ref pos id v r) as [r2 h2] eqn:El. apply pair_equal_spec in E; destruct E as [<- <-].
      destruct (IHr r2 h2 W J Ev Hv eq_refl) as (X & Y & Z).
      assert (L : loose shs m l r2).
      { unfold loose. refine (conj T2 (conj A (conj B (conj (or_introl C) (conj (or_intror Y) (conj F (conj _ (conj I X)))))))).
        eapply added_key; [exact Z|exact G| |]; unfold klt, same_key; cbn; intros; lia. }
      destruct (rebalance_spec shs m l r2 W L) as (X' & Y' & Z'). split; [exact X'|]. split; [exact Y'|].
      apply V3. unfold added_view. rewrite Z', !views_up by assumption.
      destruct Z as [(A1 & x & B1 & E1 & K1 & K2 & E2)|(A1 & B1 & E1 & K2 & E2 & E3)].
      * left. exists (views shs l ++ view m :: A1), x, B1. rewrite E1, E2. rewrite <- !app_assoc. cbn. auto.
      * right. exists (views shs l ++ view m :: A1), B1. rewrite E1, E2. rewrite <- !app_assoc. cbn.
        refine (conj eq_refl (conj K2 (conj eq_refl _))). rewrite <- E1. apply Forall_app; split.
        -- eapply Forall_impl; [|exact F]. unfold klt, same_key. cbn. intros. lia.
        -- constructor; [unfold same_key; cbn; lia|exact E3].
Qed.

Lemma search_spec : forall shs pos id t t' o, wf_shs shs -> inv shs t -> search shs pos id t = (t', o) ->
  inv shs t' /\ up shs t' /\ views shs t' = views shs t /\
  match o with
  | Some n => In (view n) (views shs t) /\ same_key pos id (view n)
  | None => Forall (fun x => ~ same_key pos id x) (views shs t)
  end.
Proof.
  induction t as [|n l IHl r IHr]; intros t' o W H E; cbn [search] in E.
  - apply pair_equal_spec in E; destruct E as [<- <-]. cbn. auto.
  - destruct (node_sync shs n l r W H) as (H2 & T2 & V2). rewrite <- V2.
    set (m := apply_shifts shs n l r) in *. clearbody m. clear H V2.
    pose proof H2 as H3. apply inv_elim in H3; [|assumption|assumption]. destruct H3 as (A & B & C & D & F & G & I & J).
    pose proof (key_compare_spec pos id (n_pos m) (n_id m)) as K.
    destruct (key_compare pos id (n_pos m) (n_id m)).
    + apply pair_equal_spec in E; destruct E as [<- <-]. split; [exact H2|]. split; [exact T2|]. split; [reflexivity|].
      rewrite views_up by assumption. split; [apply in_or_app; right; left; reflexivity|]. unfold same_key. cbn. lia.
    + destruct (search shs pos id l) as [l2 o2] eqn:El. apply pair_equal_spec in E; destruct E as [<- <-].
      destruct (IHl l2 o2 W I eq_refl) as (X & Y & Z & Q).
      split; [eapply inv_replace; try eassumption; [rewrite Z; apply incl_refl|apply incl_refl]|].
      split; [exact T2|]. rewrite !views_up by assumption. rewrite Z. split; [reflexivity|].
      destruct o2; [split; [apply in_or_app; left; tauto|tauto]|].
      apply Forall_app; split; [exact Q|]. constructor; [unfold same_key; cbn; lia|].
      eapply Forall_impl; [|exact G]. unfold klt, same_key. cbn. intros. lia.
    + destruct (search shs pos id r) as [r2 o2] eqn:El. apply pair_equal_spec in E; destruct E as [<- <-].
      destruct (IHr r2 o2 W J eq_refl) as (X & Y & Z & Q).
      split; [eapply inv_replace; try eassumption; [apply incl_refl|rewrite Z; apply incl_refl]|].
      split; [exact T2|]. rewrite !views_up by assumption. rewrite Z. split; [reflexivity|].
      destruct o2; [split; [apply in_or_app; right; right; tauto|tauto]|].
      apply Forall_app; split; [|constructor; [unfold same_key; cbn; lia|exact Q]].
      eapply Forall_impl; [|exact F]. unfold klt, same_key. cbn. intros. lia.
Qed.

End P.
