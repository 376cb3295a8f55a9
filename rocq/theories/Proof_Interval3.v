(** Proofs about the lazylog interval tree: shifts, handles and values. *)
From Coq Require Import ZArith Lia.
From Verif Require Import Base Model_Interval Spec_Interval Proof_Interval Proof_Interval2.
Local Open Scope Z_scope.

Section P.
Context {V : Type}.
Notation tree := (tree V).
Notation nd := (nd V).
Notation ival := (ival V).
Notation vw := (@vw V).

(** ** A new shift *)
Definition mvw (low amt : Z) (x : vw) : vw :=
  if low <=? v_pos x then (v_ref x, v_pos x + amt, v_id x, ins_shift amt (v_ins x)) else x.

Lemma wf_snoc : forall shs low amt, wf_shs shs -> wf_shs (shs ++ [Sh low amt (S (List.length shs))]).
Proof.
  intros shs low amt W j s H. destruct (Nat.lt_ge_cases j (List.length shs)).
  - rewrite nth_error_app1 in H by assumption. apply W. exact H.
  - rewrite nth_error_app2 in H by assumption. destruct (j - List.length shs)%nat as [|k] eqn:E; cbn in H.
    + injection H as <-. cbn. lia.
    + destruct k; discriminate.
Qed.

Lemma apply_snoc : forall shs low amt (n : nd) l r, wf_shs shs -> (n_ts n <= List.length shs)%nat ->
  let s := Sh low amt (S (List.length shs)) in
  apply_shifts (shs ++ [s]) n l r = apply_shift s (apply_shifts shs n l r) l r.
Proof.
  intros shs low amt n l r W T s. pose proof (wf_snoc shs low amt W) as W2. fold s in W2.
  rewrite (apply_shifts_eq (shs ++ [s])); [|exact W2|rewrite app_length; cbn; lia].
  rewrite apply_shifts_eq by assumption. rewrite skipn_app.
  replace (n_ts n - List.length shs)%nat with O by lia. cbn [skipn]. unfold fold_sh. rewrite fold_left_app. reflexivity.
Qed.

(** the effect of one shift on a node that is up to date *)
Lemma apply_one : forall k low amt (n : nd) l r, n_ts n = k -> n_pos n <= n_max n ->
  let n2 := apply_shift (Sh low amt (S k)) n l r in
  view n2 = mvw low amt (view n) /\
  ((n_max n < low /\ n_max n2 = n_max n) \/
   (low <= n_max n /\ n_max n + amt <= n_max n2 /\ Forall (fun i => iv_high i <= n_max n2) (n_ins n2) /\
    (forall c cl cr, l = Node c cl cr -> n_max c <= n_max n2) /\ (forall c cl cr, r = Node c cl cr -> n_max c <= n_max n2))).
Proof.
  intros k low amt n l r T P n2. unfold n2, apply_shift. cbn [sh_ts sh_idx sh_amt]. rewrite T.
  destruct (Nat.leb_spec (S k) k) as [C|_]; [lia|]. cbn [n_max set_ts]. unfold mvw. cbn [v_pos view].
  destruct (Z.ltb_spec (n_max n) low) as [Q|Q].
  - destruct (Z.leb_spec low (n_pos n)) as [C|_]; [lia|]. split; [reflexivity|]. left. auto.
  - destruct (Z.leb_spec low (n_pos n)) as [C|C]; cbn [n_pos set_max set_ts];
    (destruct (Z.leb_spec low (n_pos n)) as [C'|C']; [|]); try lia.
    + pose proof (update_max_spec (set_ins (ins_shift amt (n_ins (set_max (n_max n + amt) (set_ts (S k) n))))
        (set_key (n_pos n + amt) (n_id (set_max (n_max n + amt) (set_ts (S k) n))) (set_max (n_max n + amt) (set_ts (S k) n)))) l r)
        as (A & B & D & E & F & G).
      split; [rewrite A; reflexivity|]. right. split; [exact Q|]. split; [exact D|]. split; [exact E|]. split; assumption.
    + pose proof (update_max_spec (set_max (n_max n + amt) (set_ts (S k) n)) l r) as (A & B & D & E & F & G).
      split; [rewrite A; reflexivity|]. right. split; [exact Q|]. split; [exact D|]. split; [exact E|]. split; assumption.
Qed.

Lemma mvw_core : forall low amt x, core x -> core (mvw low amt x).
Proof.
  intros low amt x H. unfold mvw. destruct (low <=? v_pos x); [|exact H]. unfold core in *. cbn [v_ins v_pos].
  unfold ins_shift. rewrite Forall_map. eapply Forall_impl; [|exact H]. cbn. intros i Hi. lia.
Qed.
Lemma mvw_below : forall low amt m x, below m x -> low <= v_pos x -> below (m + amt) (mvw low amt x).
Proof.
  intros low amt m x [H1 H2] L. unfold mvw. destruct (Z.leb_spec low (v_pos x)); [|lia]. split; [cbn; lia|].
  cbn [v_ins]. unfold ins_shift. rewrite Forall_map. eapply Forall_impl; [|exact H2]. cbn. intros i Hi. lia.
Qed.
Lemma mvw_id : forall low amt x, v_pos x < low -> mvw low amt x = x.
Proof. intros. unfold mvw. destruct (Z.leb_spec low (v_pos x)); [lia|reflexivity]. Qed.

(** the shift does not go to the left, or goes one byte to the left and nothing ends or starts where it begins *)
Definition fits (low amt : Z) (x : vw) : Prop :=
  0 <= amt \/ (amt = -1 /\ ((v_pos x < low /\ below (low - 1) x) \/ low < v_pos x)).

Lemma fits_below : forall low amt m m2 x, fits low amt x -> low <= m -> m + amt <= m2 -> below m x -> below m2 (mvw low amt x).
Proof.
  intros low amt m m2 x H L A B. destruct (Z.lt_ge_cases (v_pos x) low).
  - rewrite mvw_id by assumption. destruct H as [H|(-> & [[_ H]|H])]; [eapply below_mono; [|exact B]; lia|eapply below_mono; [|exact H]; lia|lia].
  - eapply below_mono; [|apply mvw_below; [exact B|assumption]]. exact A.
Qed.

(** a shift that may be made now *)
Definition movable (shs : list shift) (low amt : Z) (vs : list vw) : Prop :=
  Forall (fits low amt) vs \/
  (shs = [] /\ exists high, low <= high /\ low - high <= amt /\
    Forall (fun x => (v_pos x < low /\ full x) \/ high < v_pos x) vs).

Lemma movable_incl : forall shs low amt vs vs', incl vs' vs -> movable shs low amt vs -> movable shs low amt vs'.
Proof.
  intros shs low amt vs vs' S [H|(E & high & A & B & H)]; [left; eapply incl_Forall; eassumption|]. right. split; [exact E|]. exists high.
  split; [exact A|]. split; [exact B|]. eapply incl_Forall; eassumption.
Qed.

Lemma mvw_klt : forall shs low amt vs x y, movable shs low amt vs -> In x vs -> In y vs -> klt x y ->
  klt (mvw low amt x) (mvw low amt y).
Proof.
  intros shs low amt vs x y M Hx Hy K. unfold mvw, klt in *.
  destruct M as [M|(_ & high & A & B & M)].
  - rewrite Forall_forall in M. pose proof (M x Hx) as Mx. pose proof (M y Hy) as My. unfold fits in Mx, My.
    destruct (Z.leb_spec low (v_pos x)); destruct (Z.leb_spec low (v_pos y)); cbn [v_pos v_id]; lia.
  - rewrite Forall_forall in M. pose proof (M x Hx). pose proof (M y Hy).
    destruct (Z.leb_spec low (v_pos x)); destruct (Z.leb_spec low (v_pos y)); cbn [v_pos v_id]; lia.
Qed.

Lemma inv_up_nil : forall (t : tree), inv [] t -> up [] t.
Proof. intros [|n l r] H; [exact I|]. cbn in *. lia. Qed.

Lemma shift_views : forall shs low amt (t : tree), wf_shs shs -> inv shs t ->
  views (shs ++ [Sh low amt (S (List.length shs))]) t = map (mvw low amt) (views shs t).
Proof.
  induction t as [|n l IHl r IHr]; intros W H; [reflexivity|].
  destruct (node_sync shs n l r W H) as (H2 & T2 & _).
  apply inv_elim in H2; [|assumption|assumption]. destruct H2 as (A & B & C & D & F & G & I & J).
  cbn [views]. rewrite map_app. cbn [map]. rewrite IHl, IHr by assumption.
  rewrite apply_snoc by (auto; exact (inv_ts _ _ _ _ H)).
  destruct (apply_one (List.length shs) low amt (apply_shifts shs n l r) l r T2 (proj1 B)) as (X & _). rewrite X. reflexivity.
Qed.

Lemma shift_inv : forall shs low amt (t : tree), wf_shs shs -> inv shs t -> movable shs low amt (views shs t) ->
  inv (shs ++ [Sh low amt (S (List.length shs))]) t.
Proof.
  induction t as [|n l IHl r IHr]; intros W H M; [exact I|].
  pose proof (inv_ts _ _ _ _ H) as T.
  assert (P : n_pos n <= n_max n) by (cbn in H; tauto).
  destruct (node_sync shs n l r W H) as (H2 & T2 & V2). rewrite <- V2 in M. rewrite views_up in M by assumption.
  apply inv_elim in H2; [|assumption|assumption]. destruct H2 as (A & B & C & D & F & G & I & J).
  cbn [inv]. rewrite apply_snoc by assumption. rewrite !shift_views by assumption.
  assert (Ml : movable shs low amt (views shs l)) by (eapply movable_incl; [|exact M]; intros x; rewrite in_app_iff; tauto).
  assert (Mr : movable shs low amt (views shs r)) by (eapply movable_incl; [|exact M]; intros x; rewrite in_app_iff; cbn; tauto).
  specialize (IHl W I Ml). specialize (IHr W J Mr).
  set (n1 := apply_shifts shs n l r) in *. 
  destruct (apply_one (List.length shs) low amt n1 l r T2 (proj1 B)) as (X & Y).
  set (n2 := apply_shift _ n1 l r) in *. clearbody n2. rewrite X.
  assert (Bl : Forall (fun x => below (n_max n2) (mvw low amt x)) (views shs l) /\ below (n_max n2) (mvw low amt (view n1)) /\
               Forall (fun x => below (n_max n2) (mvw low amt x)) (views shs r)).
  { destruct Y as [(Y1 & Y2)|(Y1 & Y2 & Y3 & Y4 & Y5)].
    - rewrite Y2. assert (K : forall x, below (n_max n1) x -> below (n_max n1) (mvw low amt x)).
      { intros x Hx. rewrite mvw_id; [exact Hx|]. destruct Hx as [Hx _]. lia. }
      split; [|split; [apply K; exact B|]]; (eapply Forall_impl; [exact K|assumption]).
    - destruct M as [M|(E & high & M1 & M2 & M3)].
      + rewrite Forall_forall in M, C, D. rewrite !Forall_forall.
        split; [intros x Hx|split; [|intros x Hx]]; (eapply fits_below; [apply M; apply in_or_app; cbn; tauto|exact Y1|exact Y2|auto]).
      + subst shs. assert (K : forall c, inv [] c -> (forall m cl cr, c = Node m cl cr -> n_max m <= n_max n2) ->
          Forall (below (n_max n1)) (views [] c) -> Forall (fun x => below (n_max n2) (mvw low amt x)) (views [] c)).
        { intros c Ic Hc Hb. pose proof (up_below [] c (n_max n2) W (inv_up_nil c Ic) Ic Hc) as U.
          rewrite Forall_forall in *. intros x Hx. destruct (Z.lt_ge_cases (v_pos x) low).
          - rewrite mvw_id by assumption. apply U. exact Hx.
          - eapply below_mono; [|apply mvw_below; [exact (Hb x Hx)|assumption]]. exact Y2. }
        split; [apply K; assumption|]. split; [|apply K; assumption].
        destruct (Z.lt_ge_cases (v_pos (view n1)) low) as [Q|Q].
        * rewrite <- X. split; [|exact Y3].
          apply Forall_app in M3. destruct M3 as [_ M3]. inversion M3 as [|? ? M4 _]; subst. destruct M4 as [[_ M4]|M4]; [|lia].
          pose proof (mvw_core low amt _ A) as A2. rewrite <- X in A2. rewrite (mvw_id low amt (view n1)) in X by assumption.
          unfold full in M4. rewrite <- X in M4. unfold core in A2.
          change (v_ins (view n2)) with (n_ins n2) in *. destruct (n_ins n2) as [|i ins]; [congruence|].
          inversion A2; subst. inversion Y3; subst. lia.
        * eapply below_mono; [|apply mvw_below; [exact B|assumption]]. exact Y2. }
  destruct Bl as (Bl & Bn & Br).
  split; [rewrite app_length; lia|]. split; [exact P|]. split; [apply mvw_core; exact A|]. split; [exact Bn|].
  rewrite !Forall_map. split; [exact Bl|]. split; [exact Br|].
  split; [|split; [|split; assumption]].
  - rewrite Forall_forall in *. intros x Hx. eapply mvw_klt; [exact M| | |apply F; exact Hx]; apply in_or_app; cbn; tauto.
  - rewrite Forall_forall in *. intros x Hx. eapply mvw_klt; [exact M| | |apply G; exact Hx]; apply in_or_app; cbn; tauto.
Qed.

(** ** Handles *)
Definition rmax (t : tree) (m : Z) : Prop := match t with Leaf => True | Node n _ _ => n_max n <= m end.
Definition tle (t t' : tree) : Prop :=
  match t, t' with Leaf, Leaf => True | Node n _ _, Node n' _ _ => n_max n <= n_max n' | _, _ => False end.

Lemma max_with_mono : forall t t' m m', tle t t' -> m <= m' -> max_with t m <= max_with t' m'.
Proof. intros [|] [|] m m' H L; cbn in *; try contradiction; lia. Qed.

Definition nle (n n' : nd) : Prop := view n = view n' /\ n_ts n = n_ts n' /\ n_max n <= n_max n' /\ n_pos n <= n_max n.

Lemma apply_shift_mono : forall s (n n' : nd) l r l' r', 0 <= sh_amt s -> tle l l' -> tle r r' -> nle n n' ->
  nle (apply_shift s n l r) (apply_shift s n' l' r').
Proof.
  intros s n n' l r l' r' Hs Hl Hr (V1 & T1 & M1 & P1). unfold apply_shift. rewrite <- T1.
  unfold view in V1. injection V1 as R1 Q1 I1 S1.
  destruct (sh_ts s <=? n_ts n)%nat; [unfold nle, view; rewrite R1, Q1, I1, S1; split; [reflexivity|]; split; [congruence|]; split; [exact M1|]; rewrite <- Q1; exact P1|].
  cbn [n_max set_ts].
  destruct (Z.ltb_spec (n_max n) (sh_idx s)) as [A|A].
  - destruct (Z.ltb_spec (n_max n') (sh_idx s)) as [B|B].
    + unfold nle, view; cbn. rewrite R1, Q1, I1, S1. split; [reflexivity|]. split; [reflexivity|]. split; [exact M1|]. rewrite <- Q1. exact P1.
    + cbn [n_pos set_max set_ts]. destruct (Z.leb_spec (sh_idx s) (n_pos n')); [lia|].
      unfold nle, update_max, view; cbn. rewrite R1, Q1, I1, S1. split; [reflexivity|]. split; [reflexivity|].
      pose proof (max_with_ge r' (n_max n' + sh_amt s)). pose proof (max_with_ge l' (max_with r' (n_max n' + sh_amt s))). lia.
  - destruct (Z.ltb_spec (n_max n') (sh_idx s)) as [B|B]; [lia|].
    cbn [n_pos set_max set_ts]. rewrite <- Q1.
    assert (K : forall h, Z.max (max_with l (max_with r (n_max n + sh_amt s))) h <= Z.max (max_with l' (max_with r' (n_max n' + sh_amt s))) h).
    { intros h. pose proof (max_with_mono l l' (max_with r (n_max n + sh_amt s)) (max_with r' (n_max n' + sh_amt s)) Hl) as K.
      pose proof (max_with_mono r r' (n_max n + sh_amt s) (n_max n' + sh_amt s) Hr). lia. }
    pose proof (max_with_ge r (n_max n + sh_amt s)). pose proof (max_with_ge l (max_with r (n_max n + sh_amt s))).
    destruct (Z.leb_spec (sh_idx s) (n_pos n)); unfold nle, update_max, view; cbn; rewrite R1, I1, S1;
      (split; [congruence|]; split; [reflexivity|]; split; [apply K|]; lia).
Qed.

Lemma fold_mono : forall ss (n n' : nd) l r l' r', Forall (fun s => 0 <= sh_amt s) ss -> tle l l' -> tle r r' -> nle n n' ->
  nle (fold_sh l r ss n) (fold_sh l' r' ss n').
Proof.
  induction ss as [|s ss IH]; intros n n' l r l' r' F Hl Hr H; [exact H|]. inversion F; subst.
  unfold fold_sh. cbn [fold_left]. apply IH; try assumption. apply apply_shift_mono; assumption.
Qed.

Lemma Forall_skipn : forall {A} (P : A -> Prop) k l, Forall P l -> Forall P (skipn k l).
Proof. intros A P k. induction k; intros l H; [exact H|]. destruct H; [constructor|]. cbn. auto. Qed.

Lemma tle_refl : forall t, tle t t.
Proof. destruct t; cbn; auto. lia. Qed.

Lemma apply_shift_grows : forall s (n : nd) l r, 0 <= sh_amt s -> n_max n <= n_max (apply_shift s n l r).
Proof.
  intros s n l r H. unfold apply_shift. destruct (sh_ts s <=? n_ts n)%nat; [lia|]. cbn [n_max set_ts].
  destruct (n_max n <? sh_idx s); [cbn; lia|].
  cbn [n_pos set_max set_ts].
  pose proof (max_with_ge r (n_max n + sh_amt s)). pose proof (max_with_ge l (max_with r (n_max n + sh_amt s))).
  destruct (sh_idx s <=? n_pos n); unfold update_max; cbn; lia.
Qed.
Lemma fold_grows : forall ss (n : nd) l r, Forall (fun s => 0 <= sh_amt s) ss -> n_max n <= n_max (fold_sh l r ss n).
Proof.
  induction ss as [|s ss IH]; intros n l r F; [cbn; lia|]. inversion F; subst. unfold fold_sh. cbn [fold_left].
  pose proof (apply_shift_grows s n l r H1). specialize (IH (apply_shift s n l r) l r H2). unfold fold_sh in IH. lia.
Qed.

(** changing subtrees for ones that look the same and whose roots' maxima did not get smaller *)
Lemma inv_touch : forall shs (n : nd) l r l' r', wf_shs shs -> Forall (fun s => 0 <= sh_amt s) shs -> inv shs (Node n l r) ->
  tle l l' -> tle r r' -> views shs l' = views shs l -> views shs r' = views shs r -> inv shs l' -> inv shs r' ->
  inv shs (Node n l' r') /\ views shs (Node n l' r') = views shs (Node n l r).
Proof.
  intros shs n l r l' r' W F H Hl Hr Vl Vr Il Ir.
  assert (K : nle (apply_shifts shs n l r) (apply_shifts shs n l' r')).
  { pose proof (inv_ts _ _ _ _ H). rewrite !apply_shifts_eq by assumption. apply fold_mono; try assumption.
    - apply Forall_skipn. exact F.
    - unfold nle. split; [reflexivity|]. split; [reflexivity|]. split; [lia|]. cbn in H. tauto. }
  destruct K as (K1 & K2 & K3 & K4). split.
  - cbn [inv] in *. rewrite Vl, Vr, <- K1. destruct H as (A & B & C & D & E & G & I & J & L & M).
    split; [exact A|]. split; [exact B|]. split; [exact C|]. split; [eapply below_mono; eassumption|].
    split; [eapply Forall_below_mono; eassumption|]. split; [eapply Forall_below_mono; eassumption|]. tauto.
  - cbn [views]. rewrite Vl, Vr, K1. reflexivity.
Qed.

Lemma touch_spec : forall shs h (t t' : tree) o, wf_shs shs -> Forall (fun s => 0 <= sh_amt s) shs -> inv shs t ->
  touch shs h t = (t', o) -> inv shs t' /\ views shs t' = views shs t /\ tle t t'.
Proof.
  induction t as [|n l IHl r IHr]; intros t' o W F H E; cbn [touch] in E.
  - apply pair_equal_spec in E; destruct E as [<- <-]. cbn. auto.
  - destruct (n_ref n =? h)%nat.
    + apply pair_equal_spec in E; destruct E as [<- <-]. destruct (node_sync shs n l r W H) as (H2 & T2 & V2).
      split; [exact H2|]. split; [exact V2|]. cbn [tle]. rewrite apply_shifts_eq by (auto; exact (inv_ts _ _ _ _ H)).
      apply fold_grows. apply Forall_skipn. exact F.
    + assert (Il : inv shs l) by (cbn in H; tauto). assert (Ir : inv shs r) by (cbn in H; tauto).
      destruct (touch shs h l) as [l2 p] eqn:El. destruct (IHl l2 p W F Il eq_refl) as (X & Y & Z).
      destruct p as [z|].
      * apply pair_equal_spec in E; destruct E as [<- <-].
        destruct (inv_touch shs n l r l2 r W F H Z (tle_refl r) Y eq_refl X Ir) as [Q1 Q2].
        split; [exact Q1|]. split; [exact Q2|]. cbn. lia.
      * destruct (touch shs h r) as [r2 p2] eqn:Er. destruct (IHr r2 p2 W F Ir eq_refl) as (X2 & Y2 & Z2).
        apply pair_equal_spec in E; destruct E as [<- <-].
        destruct (inv_touch shs n l r l2 r2 W F H Z Z2 Y Y2 X X2) as [Q1 Q2].
        split; [exact Q1|]. split; [exact Q2|]. cbn. lia.
Qed.

Lemma apply_shift_ref : forall s (n : nd) l r, n_ref (apply_shift s n l r) = n_ref n.
Proof.
  intros. unfold apply_shift. destruct (sh_ts s <=? n_ts n)%nat; [reflexivity|]. cbn [n_max set_ts].
  destruct (n_max n <? sh_idx s); [reflexivity|]. cbn [n_pos set_max set_ts]. destruct (sh_idx s <=? n_pos n); reflexivity.
Qed.
Lemma apply_shifts_ref : forall shs (n : nd) l r, n_ref (apply_shifts shs n l r) = n_ref n.
Proof.
  intros. unfold apply_shifts. destruct (rev shs); [reflexivity|]. destruct (sh_ts s <=? n_ts n)%nat; [reflexivity|].
  generalize (skipn (shift_start (n_ts n) shs (List.length shs - 1)) shs). intros ss. revert n.
  induction ss as [|x ss IH]; intros n; [reflexivity|]. cbn [fold_left]. rewrite IH. apply apply_shift_ref.
Qed.

Lemma touch_read : forall shs h (t t' : tree) o, touch shs h t = (t', o) ->
  match o with
  | Some p => exists x, In x (views shs t) /\ v_ref x = h /\ v_pos x = p
  | None => Forall (fun x => v_ref x <> h) (views shs t)
  end.
Proof.
  induction t as [|n l IHl r IHr]; intros t' o E; cbn [touch] in E.
  - apply pair_equal_spec in E; destruct E as [<- <-]. constructor.
  - cbn [views]. destruct (Nat.eqb_spec (n_ref n) h) as [Q|Q].
    + apply pair_equal_spec in E; destruct E as [<- <-]. exists (view (apply_shifts shs n l r)).
      split; [apply in_or_app; right; left; reflexivity|]. split; [|reflexivity]. cbn. rewrite apply_shifts_ref. exact Q.
    + destruct (touch shs h l) as [l2 p] eqn:El. specialize (IHl l2 p eq_refl). destruct p as [z|].
      * apply pair_equal_spec in E; destruct E as [<- <-]. destruct IHl as (x & A & B). exists x. split; [apply in_or_app; tauto|exact B].
      * destruct (touch shs h r) as [r2 p2] eqn:Er. specialize (IHr r2 p2 eq_refl).
        apply pair_equal_spec in E; destruct E as [<- <-]. destruct p2 as [z|].
        -- destruct IHr as (x & A & B). exists x. split; [apply in_or_app; cbn; tauto|exact B].
        -- apply Forall_app; split; [exact IHl|]. constructor; [|exact IHr]. cbn. rewrite apply_shifts_ref. exact Q.
Qed.

(** ** Values *)
Definition values (vs : list vw) : list V := flat_map (fun x => map iv_val (v_ins x)) vs.

Lemma apply_shift_vals : forall s (n : nd) l r, map iv_val (n_ins (apply_shift s n l r)) = map iv_val (n_ins n).
Proof.
  intros. unfold apply_shift. destruct (sh_ts s <=? n_ts n)%nat; [reflexivity|]. cbn [n_max set_ts].
  destruct (n_max n <? sh_idx s); [reflexivity|]. cbn [n_pos set_max set_ts]. destruct (sh_idx s <=? n_pos n); [|reflexivity].
  cbn. unfold ins_shift. rewrite map_map. reflexivity.
Qed.
Lemma apply_shifts_vals : forall shs (n : nd) l r, map iv_val (n_ins (apply_shifts shs n l r)) = map iv_val (n_ins n).
Proof.
  intros. unfold apply_shifts. destruct (rev shs); [reflexivity|]. destruct (sh_ts s <=? n_ts n)%nat; [reflexivity|].
  generalize (skipn (shift_start (n_ts n) shs (List.length shs - 1)) shs). intros ss. revert n.
  induction ss as [|x ss IH]; intros n; [reflexivity|]. cbn [fold_left]. rewrite IH. apply apply_shift_vals.
Qed.
Lemma allvals_views : forall shs (t : tree), allvals t = values (views shs t).
Proof.
  induction t as [|n l IHl r IHr]; [reflexivity|]. cbn [allvals views]. unfold values in *. rewrite flat_map_app. cbn [flat_map].
  cbn [v_ins view]. rewrite apply_shifts_vals, IHl, IHr. reflexivity.
Qed.

(** ** A removal that meets nothing *)
Lemma remove_overlaps_none : forall shs low high fuel (t : tree), wf_shs shs -> inv shs t -> (size t < fuel)%nat ->
  Forall full (views shs t) -> Forall (fun x => Forall (fun i => overlaps i low high = false) (v_ins x)) (views shs t) ->
  exists t', remove_overlaps fuel shs low high t = Some t' /\ views shs t' = views shs t /\ up shs t'.
Proof.
  intros shs low high. induction fuel as [|fuel IH]; intros t W H Hf Hu Ho; [lia|]. destruct t as [|n0 l r].
  - exists Leaf. cbn. auto.
  - cbn [remove_overlaps]. destruct (node_sync shs n0 l r W H) as (H2 & T2 & V2). rewrite <- V2 in *.
    set (n := apply_shifts shs n0 l r) in *. clearbody n. cbv zeta.
    apply inv_elim in H2; [|assumption|assumption]. destruct H2 as (A & B & C & D & F & G & I & J).
    destruct (n_max n <? low); [exists (Node n l r); auto|].
    rewrite views_up in Hu, Ho by assumption. apply Forall_app in Hu, Ho. destruct Hu as [Hu1 Hu2]. destruct Ho as [Ho1 Ho2].
    inversion Hu2; subst. inversion Ho2; subst. cbn [size] in Hf.
    destruct (IH l W I ltac:(lia) Hu1 Ho1) as (l1 & El & Vl & Ul). rewrite El.
    rewrite drop_none by assumption. cbn [app].
    set (n1 := set_ins (n_ins n) n). assert (En : n_ins n1 = n_ins n) by reflexivity. 
    assert (Vn : view n1 = view n) by reflexivity.
    destruct (n_ins n1) as [|i0 ins0] eqn:Ei; [exfalso; apply H2; cbn; congruence|].
    destruct (high <? n_pos n1).
    + exists (Node n1 l1 r). split; [reflexivity|]. split; [|exact T2]. rewrite !views_up by assumption. congruence.
    + destruct (IH r W J ltac:(lia) H3 H5) as (r1 & Er & Vr & Ur). rewrite Er.
      exists (Node n1 l1 r1). split; [reflexivity|]. split; [|exact T2]. rewrite !views_up by assumption. congruence.
Qed.

End P.
