(** Proofs about the lazylog interval tree: a node that has not seen the last shifts yet still has a maximum that was right
    when it was last brought up to date.  So handles may be asked for their positions at any time. *)
From Coq Require Import ZArith Lia.
From Verif Require Import Base Model_Interval Spec_Interval Proof_Interval Proof_Interval2 Proof_Interval3.
Local Open Scope Z_scope.

Section P.
Context {V : Type}.
Notation tree := (tree V).
Notation nd := (nd V).
Notation ival := (ival V).
Notation vw := (@vw V).

Definition mv (x : vw) (s : shift) : vw := mvw (sh_idx s) (sh_amt s) x.
Definition mvs (ss : list shift) (x : vw) : vw := fold_left mv ss x.

(** the shift keeps the nodes before it apart from those that it moves, and the former are not empty *)
Definition apart (s : shift) (x : vw) : Prop :=
  fits (sh_idx s) (sh_amt s) x \/ (v_pos x < sh_idx s /\ full x) \/ (sh_idx s <= v_pos x /\ sh_idx s <= v_pos x + sh_amt s).

(** the shifts fit the node where it is when they are made *)
Fixpoint path (ss : list shift) (x : vw) : Prop :=
  match ss with [] => True | s :: ss => fits (sh_idx s) (sh_amt s) x /\ path ss (mv x s) end.
(** the shifts that are left for a node that has seen the first [k]; only the very first may go far to the left *)
Definition ways (shs : list shift) (k : nat) (x : vw) : Prop :=
  match k with
  | O => match shs with [] => True | s :: ss => apart s x /\ path ss (mv x s) end
  | S _ => path (skipn k shs) x
  end.

(** [x] is a node below [n] as it is after all shifts: [n]'s maximum covers what it was when [n] was last up to date *)
Definition staged (shs : list shift) (n : nd) (x : vw) : Prop :=
  exists y, x = mvs (skipn (n_ts n) shs) y /\ below (n_max n) y /\ ways shs (n_ts n) y.

(** the same for the node itself *)
Definition own (shs : list shift) (n : nd) : Prop :=
  core (view n) /\ below (n_max n) (view n) /\ ways shs (n_ts n) (view n).

Fixpoint stg (shs : list shift) (t : tree) : Prop :=
  match t with
  | Leaf => True
  | Node n l r =>
      (n_ts n = List.length shs \/ ((n_ts n <= List.length shs)%nat /\ own shs n /\
        Forall (staged shs n) (views shs l) /\ Forall (staged shs n) (views shs r))) /\
      stg shs l /\ stg shs r
  end.

Lemma stg_ts : forall shs (n : nd) l r, stg shs (Node n l r) -> (n_ts n <= List.length shs)%nat.
Proof. cbn. intros. lia. Qed.
Lemma stg_up : forall shs (n : nd) l r, n_ts n = List.length shs -> stg shs l -> stg shs r -> stg shs (Node n l r).
Proof. cbn. tauto. Qed.
Lemma stg_l : forall shs (n : nd) l r, stg shs (Node n l r) -> stg shs l.
Proof. cbn. tauto. Qed.
Lemma stg_r : forall shs (n : nd) l r, stg shs (Node n l r) -> stg shs r.
Proof. cbn. tauto. Qed.

(** ** The operations other than touch bring every node up to date that they change *)
Lemma stg_sync : forall shs (t : tree), wf_shs shs -> stg shs t -> stg shs (sync shs t) /\ up shs (sync shs t).
Proof.
  intros shs [|n l r] W H; [cbn; auto|]. pose proof (sync_ts shs n l r W (stg_ts _ _ _ _ H)) as T. cbn [sync]. split; [|exact T].
  apply stg_up; [exact T|eapply stg_l; eassumption|eapply stg_r; eassumption].
Qed.

Definition good (shs : list shift) (t : tree) : Prop := stg shs t /\ up shs t.

Lemma stg_rotate_left : forall shs (t t' : tree), wf_shs shs -> stg shs t -> rotate_left shs t = Some t' -> good shs t'.
Proof.
  intros shs [|n l r] t' W H E; [discriminate|]. unfold rotate_left in E. pose proof (sync_ts shs n l r W (stg_ts _ _ _ _ H)) as T.
  destruct (stg_sync shs r W (stg_r _ _ _ _ H)) as [A B]. destruct (sync shs r) as [|m rl rr]; [discriminate|]. injection E as <-. cbn [up] in B.
  pose proof (stg_l _ _ _ _ H). pose proof (stg_l _ _ _ _ A). pose proof (stg_r _ _ _ _ A).
  split; [|exact B]. apply stg_up; [exact B|apply stg_up; assumption|assumption].
Qed.
Lemma stg_rotate_right : forall shs (t t' : tree), wf_shs shs -> stg shs t -> rotate_right shs t = Some t' -> good shs t'.
Proof.
  intros shs [|n l r] t' W H E; [discriminate|]. unfold rotate_right in E. pose proof (sync_ts shs n l r W (stg_ts _ _ _ _ H)) as T.
  destruct (stg_sync shs l W (stg_l _ _ _ _ H)) as [A B]. destruct (sync shs l) as [|m ll lr]; [discriminate|]. injection E as <-. cbn [up] in B.
  pose proof (stg_r _ _ _ _ H). pose proof (stg_l _ _ _ _ A). pose proof (stg_r _ _ _ _ A).
  split; [|exact B]. apply stg_up; [exact B|assumption|apply stg_up; assumption].
Qed.
Lemma stg_rebalance : forall shs (n : nd) l r, wf_shs shs -> n_ts n = List.length shs -> stg shs l -> stg shs r -> good shs (rebalance shs (Node n l r)).
Proof.
  intros shs n l r W T L R. unfold rebalance. cbv zeta. set (n2 := update_max (recalc n l r) l r).
  assert (T2 : n_ts n2 = List.length shs) by exact T.
  destruct (height l + 2 <=? height r)%nat.
  - set (r2 := if _ : bool then _ else r). assert (R2 : stg shs r2).
    { unfold r2. destruct (_ <? _)%nat; [|exact R]. destruct (rotate_right shs r) as [r3|] eqn:E; [|exact R]. exact (proj1 (stg_rotate_right _ _ _ W R E)). }
    assert (K : stg shs (Node n2 l r2)) by (apply stg_up; assumption).
    destruct (rotate_left shs (Node n2 l r2)) as [t'|] eqn:E; [|split; assumption]. exact (stg_rotate_left _ _ _ W K E).
  - destruct (height r + 2 <=? height l)%nat; [|split; [apply stg_up; assumption|exact T2]].
    set (l2 := if _ : bool then _ else l). assert (L2 : stg shs l2).
    { unfold l2. destruct (_ <? _)%nat; [|exact L]. destruct (rotate_left shs l) as [l3|] eqn:E; [|exact L]. exact (proj1 (stg_rotate_left _ _ _ W L E)). }
    assert (K : stg shs (Node n2 l2 r)) by (apply stg_up; assumption).
    destruct (rotate_right shs (Node n2 l2 r)) as [t'|] eqn:E; [|split; assumption]. exact (stg_rotate_right _ _ _ W K E).
Qed.
Lemma stg_rebalance_t : forall shs (t : tree), wf_shs shs -> good shs t -> good shs (rebalance shs t).
Proof. intros shs [|n l r] W [H U]; [split; exact I|]. apply stg_rebalance; try assumption; [eapply stg_l|eapply stg_r]; eassumption. Qed.

Lemma stg_add : forall shs ref pos id v (t t' : tree) h, wf_shs shs -> stg shs t -> add shs (List.length shs) ref pos id v t = (t', h) -> good shs t'.
Proof.
  induction t as [|n l IHl r IHr]; intros t' h W H E; cbn [add] in E.
  - apply pair_equal_spec in E; destruct E as [<- <-]. split; [apply stg_up; [reflexivity|exact I|exact I]|reflexivity].
  - pose proof (sync_ts shs n l r W (stg_ts _ _ _ _ H)) as T. pose proof (stg_l _ _ _ _ H) as L. pose proof (stg_r _ _ _ _ H) as R.
    destruct (key_compare _ _ _ _).
    + apply pair_equal_spec in E; destruct E as [<- <-]. apply stg_rebalance; try assumption. reflexivity.
    + destruct (add _ _ _ _ _ _ l) as [l2 h2]. apply pair_equal_spec in E; destruct E as [<- <-]. destruct (IHl l2 h2 W L eq_refl). apply stg_rebalance; assumption.
    + destruct (add _ _ _ _ _ _ r) as [r2 h2]. apply pair_equal_spec in E; destruct E as [<- <-]. destruct (IHr r2 h2 W R eq_refl). apply stg_rebalance; assumption.
Qed.

Lemma stg_smallest : forall shs (t : tree) n l r, wf_shs shs -> t = Node n l r -> stg shs t -> n_ts (smallest shs n l r) = List.length shs.
Proof.
  induction t as [|n l IHl r _]; intros n0 l0 r0 W E H; [discriminate|]. injection E as <- <- <-.
  destruct l as [|ln ll lr]; cbn [smallest]; [exact (sync_ts shs n Leaf r W (stg_ts _ _ _ _ H))|]. eapply IHl; [exact W|reflexivity|eapply stg_l; eassumption].
Qed.

Lemma stg_remove : forall shs (t : tree) pos id, wf_shs shs -> stg shs t -> good shs (remove shs pos id t).
Proof.
  induction t as [|n l IHl r IHr]; intros pos id W H; cbn [remove]; [split; exact I|].
  pose proof (sync_ts shs n l r W (stg_ts _ _ _ _ H)) as T. pose proof (stg_l _ _ _ _ H) as L. pose proof (stg_r _ _ _ _ H) as R.
  destruct (key_compare _ _ _ _).
  - destruct l as [|ln ll lr]; destruct r as [|rn rl rr].
    + split; exact I.
    + apply stg_rebalance_t; [exact W|]. apply stg_sync; assumption.
    + apply stg_rebalance_t; [exact W|]. apply stg_sync; assumption.
    + apply stg_rebalance; try assumption.
      * exact (stg_smallest shs _ rn rl rr W eq_refl R).
      * apply stg_sync; assumption.
      * exact (proj1 (IHr _ _ W R)).
  - apply stg_rebalance; try assumption. exact (proj1 (IHl _ _ W L)).
  - apply stg_rebalance; try assumption. exact (proj1 (IHr _ _ W R)).
Qed.

Lemma stg_search : forall shs pos id (t t' : tree) o, wf_shs shs -> stg shs t -> search shs pos id t = (t', o) -> stg shs t'.
Proof.
  induction t as [|n l IHl r IHr]; intros t' o W H E; cbn [search] in E.
  - apply pair_equal_spec in E; destruct E as [<- <-]. exact I.
  - pose proof (sync_ts shs n l r W (stg_ts _ _ _ _ H)) as T. pose proof (stg_l _ _ _ _ H) as L. pose proof (stg_r _ _ _ _ H) as R.
    destruct (key_compare _ _ _ _).
    + apply pair_equal_spec in E; destruct E as [<- <-]. apply stg_up; assumption.
    + destruct (search shs pos id l) as [l2 o2]. apply pair_equal_spec in E; destruct E as [<- <-]. apply stg_up; eauto.
    + destruct (search shs pos id r) as [r2 o2]. apply pair_equal_spec in E; destruct E as [<- <-]. apply stg_up; eauto.
Qed.

Lemma stg_overlaps : forall shs low high fuel (t t' : tree), wf_shs shs -> stg shs t -> remove_overlaps fuel shs low high t = Some t' -> stg shs t'.
Proof.
  intros shs low high. induction fuel as [|fuel IH]; intros t t' W H E; [discriminate|]. cbn [remove_overlaps] in E.
  destruct t as [|n l r]; [injection E as <-; exact I|].
  pose proof (sync_ts shs n l r W (stg_ts _ _ _ _ H)) as T. pose proof (stg_l _ _ _ _ H) as L. pose proof (stg_r _ _ _ _ H) as R.
  cbv zeta in E. set (m := apply_shifts shs n l r) in *. clearbody m. destruct (n_max m <? low); [injection E as <-; apply stg_up; assumption|].
  destruct (remove_overlaps fuel shs low high l) as [l1|] eqn:El; [|discriminate]. pose proof (IH l l1 W L El) as L1.
  set (m1 := set_ins _ m) in *. assert (T1 : n_ts m1 = List.length shs) by exact T. clearbody m1.
  destruct (n_ins m1).
  - pose proof (stg_remove shs (Node m1 l1 r) (n_pos m1) (n_id m1) W (stg_up _ _ _ _ T1 L1 R)) as [K _].
    destruct (n_pos m1 <=? high); [|injection E as <-; exact K]. exact (IH _ _ W K E).
  - destruct (high <? n_pos m1); [injection E as <-; apply stg_up; assumption|].
    destruct (remove_overlaps fuel shs low high r) as [r1|] eqn:Er; [|discriminate]. injection E as <-. apply stg_up; eauto.
Qed.

(** ** Moving nodes *)
Lemma mvs_snoc : forall ss s x, mvs (ss ++ [s]) x = mv (mvs ss x) s.
Proof. intros. unfold mvs. rewrite fold_left_app. reflexivity. Qed.
Lemma mvs_app : forall ss ss' x, mvs (ss ++ ss') x = mvs ss' (mvs ss x).
Proof. intros. unfold mvs. apply fold_left_app. Qed.
Lemma path_app : forall ss ss' x, path (ss ++ ss') x <-> path ss x /\ path ss' (mvs ss x).
Proof. induction ss as [|s ss IH]; intros ss' x; [cbn; tauto|]. cbn [app path]. rewrite IH. change (mvs (s :: ss) x) with (mvs ss (mv x s)). tauto. Qed.

Lemma ins_shift_inj : forall amt (a b : list ival), ins_shift amt a = ins_shift amt b -> a = b.
Proof.
  unfold ins_shift. induction a as [|[l h v] a IH]; destruct b as [|[l' h' v'] b]; cbn; intros E; try discriminate; [reflexivity|].
  injection E as E1 E2 E3 E4. f_equal; [f_equal; [lia|lia|exact E3]|auto].
Qed.
Lemma mv_inj : forall s y z, apart s y -> apart s z -> mv y s = mv z s -> y = z.
Proof.
  intros s y z A B E. assert (P : v_pos y < sh_idx s /\ v_pos z < sh_idx s \/ sh_idx s <= v_pos y /\ sh_idx s <= v_pos z).
  { assert (E2 : v_pos (mv y s) = v_pos (mv z s)) by (rewrite E; reflexivity). unfold mv, mvw, apart, fits in *. revert E2.
    destruct (Z.leb_spec (sh_idx s) (v_pos y)); destruct (Z.leb_spec (sh_idx s) (v_pos z)); cbn [v_pos]; intros E2; try tauto; exfalso; lia. }
  destruct y as [[[ry py] iy] ly], z as [[[rz pz] iz] lz]. clear A B. unfold mv, mvw in *. cbn [v_pos v_ref v_id v_ins] in *. revert E.
  destruct (Z.leb_spec (sh_idx s) py); destruct (Z.leb_spec (sh_idx s) pz); intros E; injection E as E1 E2 E3 E4; subst; try lia; [|reflexivity].
  apply ins_shift_inj in E4. subst. f_equal. f_equal. f_equal. lia.
Qed.
Lemma mvs_inj : forall ss y z, path ss y -> path ss z -> mvs ss y = mvs ss z -> y = z.
Proof.
  induction ss as [|s ss IH]; intros y z [Y1 Y2] [Z1 Z2] E || intros y z _ _ E; [exact E|]. apply (mv_inj s); [left; assumption|left; assumption|].
  apply IH; assumption.
Qed.

(** ** A node that catches up *)
Lemma one_grow : forall s k (n : nd) l r, n_ts n = k -> sh_ts s = S k -> fits (sh_idx s) (sh_amt s) (view n) -> n_pos n <= n_max n ->
  let n2 := apply_shift s n l r in
  view n2 = mv (view n) s /\ n_ts n2 = S k /\ n_pos n2 <= n_max n2 /\ (forall y, fits (sh_idx s) (sh_amt s) y -> below (n_max n) y -> below (n_max n2) (mv y s)).
Proof.
  intros [i a ts] k n l r T E G P n2. cbn in E. subst ts. cbn [sh_idx sh_amt] in *. destruct (apply_one k i a n l r T P) as [X Y]. fold n2 in X, Y.
  split; [exact X|]. split; [unfold n2; rewrite apply_shift_ts; cbn; [reflexivity|lia]|]. split.
  - change (n_pos n2) with (v_pos (view n2)). rewrite X. unfold mvw, fits in *. cbn [v_pos view] in *.
    destruct (Z.leb_spec i (n_pos n)); cbn [v_pos view]; destruct Y as [(Y1 & Y2)|(Y1 & Y2 & _)]; lia.
  - intros y Fy Hy. unfold mv. cbn [sh_idx sh_amt]. destruct Y as [(Y1 & Y2)|(Y1 & Y2 & _)].
    + rewrite Y2, mvw_id; [exact Hy|]. destruct Hy. lia.
    + eapply fits_below; eassumption.
Qed.
Lemma fold_grow : forall ss (n : nd) l r, path ss (view n) -> (forall j s, nth_error ss j = Some s -> sh_ts s = S (n_ts n + j)) -> n_pos n <= n_max n ->
  let n2 := fold_sh l r ss n in
  view n2 = mvs ss (view n) /\ n_ts n2 = (n_ts n + List.length ss)%nat /\ n_pos n2 <= n_max n2 /\ (forall y, path ss y -> below (n_max n) y -> below (n_max n2) (mvs ss y)).
Proof.
  induction ss as [|s ss IH]; intros n l r F W P n2; [cbn; rewrite Nat.add_0_r; auto|]. destruct F as [F1 F2].
  destruct (one_grow s (n_ts n) n l r eq_refl) as (A & B & C & D); try assumption.
  { rewrite (W O s eq_refl). lia. }
  destruct (IH (apply_shift s n l r) l r) as (A2 & B2 & C2 & D2); try assumption.
  { rewrite A. exact F2. }
  { intros j s' Hj. rewrite B. rewrite (W (S j) s' Hj). lia. }
  change n2 with (fold_sh l r ss (apply_shift s n l r)). unfold mvs. cbn [fold_left]. rewrite <- A. split; [exact A2|].
  split; [rewrite B2, B; cbn [List.length]; lia|]. split; [exact C2|]. intros y [Hy1 Hy2] Hy. apply D2; [exact Hy2|]. apply D; assumption.
Qed.
(** a node that is moved keeps its children's maxima *)
Definition over (m : Z) (t : tree) : Prop := match t with Leaf => True | Node c _ _ => n_max c <= m end.
Lemma one_over : forall s (n : nd) l r, over (n_max n) l /\ over (n_max n) r -> over (n_max (apply_shift s n l r)) l /\ over (n_max (apply_shift s n l r)) r.
Proof.
  intros s n l r H. unfold apply_shift. destruct (sh_ts s <=? n_ts n)%nat; [exact H|]. cbn [n_max set_ts].
  destruct (n_max n <? sh_idx s); [exact H|]. cbv zeta.
  match goal with |- over (n_max (update_max ?m l r)) l /\ _ => destruct (update_max_spec m l r) as (_ & _ & _ & _ & F & G) end.
  unfold over. split; [destruct l; [exact Logic.I|eapply F; reflexivity]|destruct r; [exact Logic.I|eapply G; reflexivity]].
Qed.
Lemma fold_over : forall ss (n : nd) l r, over (n_max n) l /\ over (n_max n) r -> over (n_max (fold_sh l r ss n)) l /\ over (n_max (fold_sh l r ss n)) r.
Proof.
  induction ss as [|s ss IH]; intros n l r H; [exact H|]. unfold fold_sh. cbn [fold_left]. apply IH. apply one_over. exact H.
Qed.

(** the first shift, which may go far to the left; what it does not move is covered by the maxima of the children *)
Lemma one_first : forall s (n : nd) l r, n_ts n = O -> sh_ts s = 1%nat -> core (view n) -> below (n_max n) (view n) -> apart s (view n) ->
  let n2 := apply_shift s n l r in
  view n2 = mv (view n) s /\ n_ts n2 = 1%nat /\ n_pos n2 <= n_max n2 /\ below (n_max n2) (view n2) /\
  (forall y, below (n_max n) y -> below (n_max n2) (mv y s) \/ (v_pos y < sh_idx s /\ over (n_max n2) l /\ over (n_max n2) r)).
Proof.
  intros [i a ts] n l r T E C B A n2. cbn in E. subst ts. pose proof (proj1 B) as P. cbn in P. destruct (apply_one O i a n l r T P) as [X Y]. fold n2 in X, Y.
  split; [exact X|]. split; [unfold n2; rewrite apply_shift_ts; cbn; [reflexivity|lia]|].
  assert (Bn : below (n_max n2) (view n2)).
  { rewrite X. destruct Y as [(Y1 & Y2)|(Y1 & Y2 & Y3 & _)].
    - rewrite Y2, mvw_id; [exact B|]. cbn. lia.
    - destruct A as [A|A]; [eapply fits_below; eassumption|]. cbn [sh_idx sh_amt] in A. destruct (Z.lt_ge_cases (v_pos (view n)) i) as [Q|Q].
      + rewrite mvw_id by assumption. rewrite mvw_id in X by assumption. rewrite <- X. split; [|exact Y3].
        destruct A as [[_ A]|[A _]]; [|cbn in *; lia].
        unfold full in A. rewrite <- X in A, C. unfold core in C. change (v_ins (view n2)) with (n_ins n2) in *. destruct (n_ins n2) as [|j ins]; [congruence|].
        inversion C; subst. inversion Y3; subst. lia.
      + eapply below_mono; [|apply mvw_below; [exact B|assumption]]. exact Y2. }
  split; [exact (proj1 Bn)|]. split; [exact Bn|]. intros y Hy. unfold mv. cbn [sh_idx sh_amt] in *. destruct Y as [(Y1 & Y2)|(Y1 & Y2 & Y3 & Y4 & Y5)].
  - left. rewrite Y2, mvw_id; [exact Hy|]. destruct Hy. lia.
  - destruct (Z.lt_ge_cases (v_pos y) i) as [Q|Q].
    + right. split; [exact Q|]. unfold over. split; [destruct l; [exact Logic.I|eapply Y4; reflexivity]|destruct r; [exact Logic.I|eapply Y5; reflexivity]].
    + left. eapply below_mono; [|apply mvw_below; [exact Hy|assumption]]. exact Y2.
Qed.

Lemma catch_up : forall shs (n : nd) l r, wf_shs shs -> n_ts n = List.length shs \/ own shs n -> (n_ts n <= List.length shs)%nat ->
  view (apply_shifts shs n l r) = mvs (skipn (n_ts n) shs) (view n).
Proof.
  intros shs n l r W O T. destruct O as [E|(C & B & A)]; [rewrite apply_id by assumption; rewrite E, skipn_all; reflexivity|].
  rewrite apply_shifts_eq by assumption. pose proof (fun j s => wf_skipn shs (n_ts n) j s W) as W2.
  destruct (n_ts n) as [|k] eqn:Ek.
  - cbn [skipn ways] in *. destruct shs as [|s shs]; [reflexivity|]. destruct A as [A A2].
    destruct (one_first s n l r Ek (W O s eq_refl) C B A) as (X1 & X2 & X3 & _).
    destruct (fold_grow shs (apply_shift s n l r) l r) as (Y & _); [rewrite X1; exact A2| |exact X3|].
    { intros j s' Hj. rewrite X2. exact (W (S j) s' Hj). }
    change (view (fold_sh l r shs (apply_shift s n l r)) = mvs shs (mv (view n) s)). rewrite Y, X1. reflexivity.
  - apply fold_grow; [exact A| |exact (proj1 B)]. intros j s Hj. rewrite Ek. exact (W2 j s Hj).
Qed.

(** ** A new shift *)
Lemma ways_snoc : forall shs s k y, (k <= List.length shs)%nat -> (shs = [] /\ apart s (mvs (skipn k shs) y)) \/ fits (sh_idx s) (sh_amt s) (mvs (skipn k shs) y) ->
  ways shs k y -> ways (shs ++ [s]) k y.
Proof.
  intros shs s k y T A W. destruct k as [|k].
  - cbn [ways skipn] in *. destruct shs as [|s0 shs]; cbn [app].
    + cbn in A. split; [destruct A as [[_ A]|A]; [exact A|left; exact A]|exact Logic.I].
    + destruct W as [W1 W2]. split; [exact W1|]. apply path_app. split; [exact W2|]. destruct A as [[A _]|A]; [discriminate|]. cbn. split; [exact A|exact Logic.I].
  - unfold ways in *. rewrite skipn_app. replace (S k - List.length shs)%nat with O by lia. cbn [skipn]. apply path_app. split; [exact W|].
    destruct A as [[-> _]|A]; [cbn in T; lia|]. cbn [path]. auto.
Qed.
Lemma staged_snoc : forall shs s n x, (n_ts n <= List.length shs)%nat -> (shs = [] /\ apart s x) \/ fits (sh_idx s) (sh_amt s) x -> staged shs n x -> staged (shs ++ [s]) n (mv x s).
Proof.
  intros shs s n x T A (y & E & B & C). exists y. rewrite skipn_app. replace (n_ts n - List.length shs)%nat with O by lia. cbn [skipn].
  rewrite mvs_snoc, <- E. split; [reflexivity|]. split; [exact B|]. apply ways_snoc; [exact T|rewrite <- E; exact A|exact C].
Qed.
Lemma Forall_map_impl : forall (P Q : vw -> Prop) f l, (forall x, In x l -> P x -> Q (f x)) -> Forall P l -> Forall Q (map f l).
Proof. intros P Q f l H F. rewrite Forall_map, Forall_forall in *. auto. Qed.
Lemma ways_all : forall shs k y, k = List.length shs -> ways shs k y.
Proof. intros shs k y ->. unfold ways. destruct shs as [|s shs]; cbn [List.length]; [exact Logic.I|]. cbn [skipn]. rewrite skipn_all. exact Logic.I. Qed.

Lemma stg_shift : forall shs low amt (t : tree), wf_shs shs -> inv shs t -> stg shs t -> movable shs low amt (views shs t) ->
  stg (shs ++ [Sh low amt (S (List.length shs))]) t.
Proof.
  intros shs low amt t W. set (s := Sh low amt (S (List.length shs))).
  assert (Sv : forall t : tree, inv shs t -> views (shs ++ [s]) t = map (fun x => mv x s) (views shs t)) by (intros; apply shift_views; assumption).
  induction t as [|n l IHl r IHr]; intros H S M; [exact I|].
  assert (Il : inv shs l) by (cbn in H; tauto). assert (Ir : inv shs r) by (cbn in H; tauto).
  destruct (node_sync shs n l r W H) as (H2 & T2 & V2). pose proof (inv_elim _ _ _ _ W T2 H2) as (_ & B & C & D & _).
  rewrite <- V2 in M. rewrite (views_up _ _ _ _ W T2) in M.
  assert (A : forall x, In x (views shs l ++ view (apply_shifts shs n l r) :: views shs r) -> (shs = [] /\ apart s x) \/ fits (sh_idx s) (sh_amt s) x).
  { intros x Hx. destruct M as [M|(E & high & M1 & M2 & M)]; rewrite Forall_forall in M; [right; exact (M x Hx)|]. left. split; [exact E|]. right.
    destruct (M x Hx) as [Q|Q]; [left; exact Q|]. right. cbn. lia. }
  cbn [stg]. split; [|split; [apply IHl; [exact Il|eapply stg_l; exact S|eapply movable_incl; [|exact M]; intros x; rewrite in_app_iff; tauto]|
                        apply IHr; [exact Ir|eapply stg_r; exact S|eapply movable_incl; [|exact M]; intros x; rewrite in_app_iff; cbn; tauto]]].
  right. pose proof (stg_ts _ _ _ _ S) as T. rewrite app_length. cbn [List.length]. split; [lia|]. rewrite !Sv by assumption.
  assert (K : own shs n /\ Forall (staged shs n) (views shs l) /\ Forall (staged shs n) (views shs r)).
  { cbn [stg] in S. destruct S as [[E|(_ & E1 & E4 & E5)] _]; [|auto].
    rewrite apply_id in * by assumption. pose proof (inv_elim _ _ _ _ W T2 H2) as (Q0 & _).
    assert (Q : forall x, below (n_max n) x -> staged shs n x).
    { intros x Hx. exists x. rewrite E at 1. rewrite skipn_all. split; [reflexivity|]. split; [exact Hx|]. apply ways_all. exact E. }
    split; [split; [exact Q0|split; [exact B|apply ways_all; exact E]]|]. split; [eapply Forall_impl; [exact Q|exact C]|eapply Forall_impl; [exact Q|exact D]]. }
  destruct K as (K & K3 & K4). pose proof (catch_up shs n l r W (or_intror K) T) as Vc. destruct K as (K0 & K1 & K2).
  split; [|split].
  - split; [exact K0|]. split; [exact K1|]. apply ways_snoc; [exact T| |exact K2]. rewrite <- Vc. apply A. apply in_or_app. right. left. reflexivity.
  - eapply Forall_map_impl; [|exact K3]. intros x Hx Q. apply staged_snoc; [exact T| |exact Q]. apply A. apply in_or_app. left. exact Hx.
  - eapply Forall_map_impl; [|exact K4]. intros x Hx Q. apply staged_snoc; [exact T| |exact Q]. apply A. apply in_or_app. right. right. exact Hx.
Qed.

(** ** Catching up without the children's help *)
(** what a child's maximum covers *)
Lemma child_covers : forall shs (c : nd) cl cr x, wf_shs shs -> stg shs (Node c cl cr) -> inv shs (Node c cl cr) ->
  In x (views shs (Node c cl cr)) -> staged shs c x.
Proof.
  intros shs c cl cr x W S I Hx. cbn [stg] in S. destruct S as [S _]. cbn [views] in Hx. apply in_app_iff in Hx. cbn [In] in Hx.
  destruct S as [E|(T & O & Sl & Sr)].
  - exists x. rewrite E at 1. rewrite skipn_all. split; [reflexivity|]. split; [|apply ways_all; exact E].
    apply inv_elim in I; [|exact W|exact E]. destruct I as (_ & B & Bl & Br & _). rewrite Forall_forall in Bl, Br. rewrite apply_id in Hx by assumption.
    destruct Hx as [Hx|[<-|Hx]]; auto.
  - rewrite Forall_forall in Sl, Sr. destruct Hx as [Hx|[Hx|Hx]]; [auto| |auto].
    exists (view c). rewrite <- Hx, catch_up; [|exact W|right; exact O|exact T]. destruct O as (O1 & O2 & O3). auto.
Qed.

Lemma settle : forall shs (n : nd) l r, wf_shs shs -> (n_ts n <= List.length shs)%nat -> own shs n ->
  Forall (staged shs n) (views shs l) -> Forall (staged shs n) (views shs r) -> inv shs l -> inv shs r -> stg shs l -> stg shs r ->
  let n2 := apply_shifts shs n l r in
  below (n_max n2) (view n2) /\ Forall (below (n_max n2)) (views shs l) /\ Forall (below (n_max n2)) (views shs r).
Proof.
  intros shs n l r W T O Sl Sr Il Ir Gl Gr n2. pose proof (catch_up shs n l r W (or_intror O) T) as Vn. destruct O as (C & B & A).
  unfold n2 in *. rewrite apply_shifts_eq in * by assumption. pose proof (fun j s => wf_skipn shs (n_ts n) j s W) as W2. rewrite Vn.
  destruct (n_ts n) as [|k] eqn:Ek.
  - cbn [skipn ways] in *. destruct shs as [|s shs]; [unfold staged in *; rewrite Ek in *; cbn in *; split; [exact B|]|].
    { split; (eapply Forall_impl; [|eassumption]; intros x (y & -> & Hy & _); exact Hy). }
    destruct A as [A A2].
    destruct (one_first s n l r Ek (W O s eq_refl) C B A) as (X1 & X2 & X3 & X4 & X5).
    change (fold_sh l r (s :: shs) n) with (fold_sh l r shs (apply_shift s n l r)) in *. change (mvs (s :: shs) (view n)) with (mvs shs (mv (view n) s)) in *.
    set (n1 := apply_shift s n l r) in *. clearbody n1. rewrite <- X1 in *.
    assert (W3 : forall j s', nth_error shs j = Some s' -> sh_ts s' = S (n_ts n1 + j)) by (intros j s' Hj; rewrite X2; exact (W (S j) s' Hj)).
    destruct (fold_grow shs n1 l r A2 W3 X3) as (Y1 & _ & Y2 & Y3).
    split; [apply Y3; [exact A2|exact X4]|].
    assert (K : forall c cl cr, over (n_max n1) l /\ over (n_max n1) r -> Node c cl cr = l \/ Node c cl cr = r -> forall x y,
      staged (s :: shs) c x -> x = mvs shs (mv y s) -> apart s y -> path shs (mv y s) -> mv y s = y -> below (n_max (fold_sh l r shs n1)) x).
    { intros c cl cr Ov Hc x y (z & Ez & Bz & Wz) Ex Ay Py Ey. 
      assert (Oc : forall m, over m l /\ over m r -> n_max c <= m) by (intros m [O1 O2]; destruct Hc as [<-|<-]; assumption).
      destruct (n_ts c) as [|k]; cbn [ways skipn] in *.
      - change (mvs (s :: shs) z) with (mvs shs (mv z s)) in Ez. destruct Wz as [Wz1 Wz2].
        assert (Q : mv y s = mv z s) by (apply (mvs_inj shs); [exact Py|exact Wz2|congruence]). apply mv_inj in Q; [|exact Ay|exact Wz1]. subst z.
        rewrite Ex. apply Y3; [exact Py|]. rewrite Ey. eapply below_mono; [|exact Bz]. apply Oc. exact Ov.
      - rewrite <- (firstn_skipn k shs) in Py, Ex, A2. rewrite mvs_app in Ex. apply path_app in Py, A2. destruct Py as [P1 P2]. destruct A2 as [A2 A3].
        assert (Q : mvs (firstn k shs) (mv y s) = z) by (apply (mvs_inj (skipn k shs)); [exact P2|exact Wz|congruence]).
        destruct (fold_grow (firstn k shs) n1 l r A2) as (Z1 & Z2 & Z3 & _); [|exact X3|].
        { intros j s' Hj. apply W3. rewrite <- (firstn_skipn k shs). rewrite nth_error_app1; [exact Hj|]. apply nth_error_Some. congruence. }
        assert (Ef : fold_sh l r shs n1 = fold_sh l r (skipn k shs) (fold_sh l r (firstn k shs) n1)).
        { rewrite <- (firstn_skipn k shs) at 1. unfold fold_sh. apply fold_left_app. }
        rewrite Ef, Ez. pose proof (Oc _ (fold_over (firstn k shs) n1 l r Ov)) as O2. set (n3 := fold_sh l r (firstn k shs) n1) in *. clearbody n3.
        destruct (fold_grow (skipn k shs) n3 l r) as (_ & _ & _ & U); [rewrite Z1; exact A3| |exact Z3|].
        { intros j s' Hj. assert (Lk : (k < List.length shs)%nat).
          { destruct (Nat.lt_ge_cases k (List.length shs)) as [Lk|Lk]; [exact Lk|]. rewrite skipn_all2 in Hj by exact Lk. destruct j; discriminate. }
          rewrite Z2, firstn_length_le by lia. rewrite (W3 (k + j)%nat); [lia|]. rewrite <- (firstn_skipn k shs). rewrite nth_error_app2; rewrite firstn_length_le by lia; [|lia].
          replace (k + j - k)%nat with j by lia. exact Hj. }
        apply U; [exact Wz|]. eapply below_mono; [|exact Bz]. exact O2. }
    assert (K2 : forall t, (t = l \/ t = r) -> Forall (staged (s :: shs) n) (views (s :: shs) t) -> inv (s :: shs) t -> stg (s :: shs) t ->
      Forall (below (n_max (fold_sh l r shs n1))) (views (s :: shs) t)).
    { intros t Ht St It Gt. rewrite Forall_forall in *. intros x Hx. destruct t as [|c cl cr]; [destruct Hx|]. destruct (St x Hx) as (y & Ey & By & Ay). rewrite Ek in *. cbn [skipn ways] in Ey, Ay.
      change (mvs (s :: shs) y) with (mvs shs (mv y s)) in Ey. destruct Ay as [Ay Py]. destruct (X5 y By) as [Q|(Q1 & Q2)]; [rewrite Ey; apply Y3; assumption|].
      apply (K c cl cr Q2 Ht x y); try assumption; [|apply mvw_id; exact Q1]. eapply child_covers; eassumption. }
    split; apply K2; auto.
  - destruct (fold_grow (skipn (S k) shs) n l r) as (Y1 & _ & Y2 & Y3); [exact A| |exact (proj1 B)|].
    { intros j s Hj. rewrite Ek. exact (W2 j s Hj). }
    split; [apply Y3; [exact A|exact B]|]. split; (eapply Forall_impl; [|eassumption]; intros x (y & -> & Hy & Py); rewrite Ek in *; apply Y3; [exact Py|exact Hy]).
Qed.

(** ** Handles *)
Lemma inv_children : forall shs (n : nd) l r l' r', wf_shs shs -> inv shs (Node n l r) -> stg shs (Node n l r) ->
  views shs l' = views shs l -> views shs r' = views shs r -> inv shs l' -> inv shs r' -> stg shs l' -> stg shs r' ->
  inv shs (Node n l' r') /\ stg shs (Node n l' r') /\ views shs (Node n l' r') = views shs (Node n l r).
Proof.
  intros shs n l r l' r' W H S Vl Vr Il Ir Gl Gr. pose proof S as [S1 _]. pose proof (stg_ts _ _ _ _ S) as T.
  assert (O : n_ts n = List.length shs \/ own shs n) by tauto.
  assert (E : view (apply_shifts shs n l' r') = view (apply_shifts shs n l r)) by (rewrite !catch_up by assumption; reflexivity).
  split; [|split].
  - cbn [inv] in *. rewrite Vl, Vr, E. destruct H as (A1 & A2 & A3 & A4 & A5 & A6 & A7 & A8 & _).
    destruct S1 as [S1|(S1 & S2 & S3 & S4)].
    + rewrite !apply_id in * by assumption. tauto.
    + destruct (settle shs n l' r' W T S2) as (K1 & K2 & K3); try assumption; rewrite ?Vl, ?Vr; try assumption. rewrite Vl in K2. rewrite Vr in K3. rewrite E in K1. tauto.
  - cbn [stg]. rewrite Vl, Vr. tauto.
  - cbn [views]. rewrite Vl, Vr, E. reflexivity.
Qed.

Lemma touch_stg : forall shs h (t t' : tree) o, wf_shs shs -> inv shs t -> stg shs t ->
  touch shs h t = (t', o) -> inv shs t' /\ stg shs t' /\ views shs t' = views shs t.
Proof.
  induction t as [|n l IHl r IHr]; intros t' o W H S E; cbn [touch] in E.
  - apply pair_equal_spec in E; destruct E as [<- <-]. cbn. auto.
  - destruct (n_ref n =? h)%nat.
    + apply pair_equal_spec in E; destruct E as [<- <-]. destruct (node_sync shs n l r W H) as (H2 & T2 & V2).
      split; [exact H2|]. split; [|exact V2]. apply stg_up; [exact T2|eapply stg_l; exact S|eapply stg_r; exact S].
    + assert (Il : inv shs l) by (cbn in H; tauto). assert (Ir : inv shs r) by (cbn in H; tauto).
      pose proof (stg_l _ _ _ _ S) as Gl. pose proof (stg_r _ _ _ _ S) as Gr.
      destruct (touch shs h l) as [l2 p] eqn:El. destruct (IHl l2 p W Il Gl eq_refl) as (X & Y & Z).
      destruct p as [z|].
      * apply pair_equal_spec in E; destruct E as [<- <-]. apply inv_children; auto.
      * destruct (touch shs h r) as [r2 p2] eqn:Er. destruct (IHr r2 p2 W Ir Gr eq_refl) as (X2 & Y2 & Z2).
        apply pair_equal_spec in E; destruct E as [<- <-]. apply inv_children; auto.
Qed.
End P.
