(** Handles of nodes that were taken out of a lazylog tree. *)
From Coq Require Import ZArith Lia Permutation.
From Verif Require Import Base Model_Interval Spec_Interval Model_Detach Proof_Interval Proof_Interval2 Proof_Interval3 Proof_Stage Proof_Interval4.
Local Open Scope Z_scope.

Section P.
Context {V : Type}.
Notation vw := (@vw V).
Notation itree := (itree V).
Notation tree := (tree V).
Notation nd := (nd V).
Notation iop := (iop V).
Notation dead := (dead V).

(** the maximum of a node with intervals covers them *)
Definition sturdy (n : nd) : Prop := n_ins n <> [] -> core (view n) /\ below (n_max n) (view n).
Lemma inv_sturdy : forall shs (n : nd) l r, wf_shs shs -> n_ts n = List.length shs -> inv shs (Node n l r) -> sturdy n.
Proof. intros shs n l r W T H _. apply inv_elim in H; tauto. Qed.
Lemma smallest_sturdy : forall shs (t : tree) n l r, t = Node n l r -> wf_shs shs -> inv shs t -> sturdy (smallest shs n l r).
Proof.
  induction t as [|n l IHl r _]; intros n0 l0 r0 E W H; [discriminate|]. injection E as <- <- <-.
  destruct (node_sync shs n l r W H) as (H2 & T2 & V2).
  destruct l as [|ln ll lr]; cbn [smallest]; [eapply inv_sturdy; eassumption|].
  apply inv_elim in H2; [|assumption|assumption]. eapply IHl; [reflexivity|assumption|tauto].
Qed.

Lemma out_min : forall shs (t : tree) n l r, t = Node n l r -> wf_shs shs -> inv shs t ->
  let m := smallest shs n l r in exists a b, remove_out shs (n_pos m) (n_id m) t = [Dead m a b].
Proof.
  induction t as [|n l IHl r IHr]; intros n0 l0 r0 E W H m; [discriminate|]. injection E as <- <- <-.
  destruct (node_sync shs n l r W H) as (H2 & T2 & V2). cbn [remove_out].
  pose proof H2 as H3. apply inv_elim in H3; [|assumption|assumption]. destruct H3 as (A & B & C & D & F & G & I & J).
  destruct l as [|ln ll lr].
  - unfold m. clear m. cbn [smallest]. set (m := apply_shifts shs n Leaf r) in *. clearbody m.
    pose proof (key_compare_spec (n_pos m) (n_id m) (n_pos m) (n_id m)) as K.
    destruct (key_compare (n_pos m) (n_id m) (n_pos m) (n_id m)); try lia. eexists. eexists. reflexivity.
  - assert (Em : m = smallest shs ln ll lr) by reflexivity. clearbody m. subst m.
    pose proof (IHl ln ll lr eq_refl W I) as IH. cbv zeta in IH. destruct (remove_min shs (Node ln ll lr) ln ll lr eq_refl W I) as (_ & _ & Z).
    set (m := smallest shs ln ll lr) in *. set (n1 := apply_shifts shs n (Node ln ll lr) r) in *. clearbody n1.
    assert (K1 : klt (view m) (view n1)) by (rewrite Z in F; inversion F; assumption).
    pose proof (key_compare_spec (n_pos m) (n_id m) (n_pos n1) (n_id n1)) as K.
    destruct (key_compare (n_pos m) (n_id m) (n_pos n1) (n_id n1)); unfold klt in K1; cbn in K1; try lia. exact IH.
Qed.

(** what is taken out of a tree when its root without intervals is removed *)
Definition gone (shs : list shift) (d : dead) : Prop := n_ts (d_nd d) = List.length shs /\ sturdy (d_nd d).
Lemma out_root : forall shs (n : nd) l r, wf_shs shs -> n_ts n = List.length shs -> n_ins n = [] -> inv shs (Node n l r) ->
  let t' := remove shs (n_pos n) (n_id n) (Node n l r) in
  exists d, remove_out shs (n_pos n) (n_id n) (Node n l r) = [d] /\ gone shs d /\
  ((d_nd d = n /\ views shs t' = views shs l ++ views shs r) \/
   exists R, views shs r = view (d_nd d) :: R /\ views shs t' = views shs l ++ (n_ref n, n_pos (d_nd d), n_id (d_nd d), []) :: R).
Proof.
  intros shs n l r W T E0 H t'. pose proof (inv_sturdy _ _ _ _ W T H) as S. unfold t'. clear t'. cbn [remove remove_out]. rewrite apply_id by assumption.
  pose proof (key_compare_spec (n_pos n) (n_id n) (n_pos n) (n_id n)) as K.
  destruct (key_compare (n_pos n) (n_id n) (n_pos n) (n_id n)); try lia. clear K.
  apply inv_elim in H; [|assumption|assumption]. destruct H as (A & B & C & D & F & G & I & J).
  destruct l as [|ln ll lr]; destruct r as [|rn rl rr].
  - eexists. split; [reflexivity|]. split; [split; assumption|]. left. split; reflexivity.
  - eexists. split; [reflexivity|]. split; [split; assumption|]. left. split; [reflexivity|].
    destruct (rebalance_sync shs (Node rn rl rr) W J) as (_ & _ & Z'). rewrite Z'. reflexivity.
  - eexists. split; [reflexivity|]. split; [split; assumption|]. left. split; [reflexivity|].
    destruct (rebalance_sync shs (Node ln ll lr) W I) as (_ & _ & Z'). rewrite Z'. symmetry. apply app_nil_r.
  - cbv zeta. set (L := Node ln ll lr) in *. set (R := Node rn rl rr) in *. destruct (out_min shs R rn rl rr eq_refl W J) as (a & b & Eo). cbv zeta in Eo.
    pose proof (smallest_up shs R rn rl rr eq_refl W J) as Tm. pose proof (smallest_sturdy shs R rn rl rr eq_refl W J) as Sm.
    destruct (remove_min shs R rn rl rr eq_refl W J) as (X & Y & Z). set (m := smallest shs rn rl rr) in *.
    exists (Dead m a b). split; [exact Eo|]. split; [split; assumption|]. right. cbn [d_nd].
    set (r2 := remove shs (n_pos m) (n_id m) R) in *. clearbody r2.
    destruct (sync_spec shs L W I) as (X1 & Y1 & Z1).
    cbn [set_key n_ins]. rewrite E0.
    assert (Eg : go_copy (@nil (ival V)) (n_ins m) = []) by (unfold go_copy; rewrite skipn_nil; reflexivity).
    rewrite Eg. set (n2 := set_ts (n_ts m) (set_ins [] (set_key (n_pos m) (n_id m) n))).
    pose proof (views_sorted shs R J) as SR. rewrite Z in SR, D, G. inversion SR; subst. inversion D; subst. inversion G; subst.
    assert (Lo : loose shs n2 (sync shs L) r2).
    { unfold loose. rewrite Z1. refine (conj Tm (conj _ (conj _ (conj _ (conj _ (conj _ (conj _ (conj X1 X)))))))).
      - constructor.
      - exact (proj1 H3).
      - left. exact C.
      - left. exact H4.
      - eapply Forall_impl; [|exact F]. intros x Hx. change (klt x (view m)). exact (klt_trans _ _ _ Hx H5).
      - exact H2. }
    destruct (rebalance_spec shs n2 _ r2 W Lo) as (X' & Y' & Z').
    exists (views shs r2). split; [exact Z|]. rewrite Z'. rewrite views_up by assumption. rewrite Z1. reflexivity.
Qed.

Definition stays (vs : list vw) (out : list dead) (y : vw) (i : ival V) : Prop :=
  (exists x, In x vs /\ v_ref x = v_ref y /\ v_id x = v_id y /\ v_pos x = v_pos y /\ In i (v_ins x)) \/
  (exists d, In d out /\ d_ref d = v_ref y /\ n_pos (d_nd d) = v_pos y /\ In i (n_ins (d_nd d))).

Lemma out_overlaps : forall shs low high fuel (t t' : tree), wf_shs shs -> inv shs t -> (size t < fuel)%nat ->
  remove_overlaps fuel shs low high t = Some t' ->
  let out := overlaps_out fuel shs low high t in
  Permutation (refs shs t) (map d_ref out ++ refs shs t') /\ Forall (gone shs) out /\
  forall y i, In y (views shs t) -> In i (v_ins y) -> overlaps i low high = false -> stays (views shs t') out y i.
Proof.
  intros shs low high. induction fuel as [|fuel IH]; intros t t' W H Hf E; [lia|].
  destruct t as [|n0 l r].
  - injection E as <-. cbn. split; [constructor|]. split; [constructor|]. intros y i [].
  - cbn [remove_overlaps overlaps_out] in *. destruct (node_sync shs n0 l r W H) as (H2 & T2 & V2). rewrite <- V2. unfold refs at 1. rewrite <- V2. fold (refs shs (Node (apply_shifts shs n0 l r) l r)).
    set (n := apply_shifts shs n0 l r) in *. clearbody n. clear V2 H. cbv zeta in E |- *.
    pose proof H2 as H3. apply inv_elim in H3; [|assumption|assumption]. destruct H3 as (A & B & C & D & F & G & I & J).
    destruct (Z.ltb_spec (n_max n) low) as [P|P].
    + injection E as <-. split; [reflexivity|]. split; [constructor|]. intros y i Hy Hi _. left. exists y. auto.
    + cbn [size] in Hf. destruct (remove_overlaps_spec shs low high fuel l W I ltac:(lia)) as (l1 & El & Il & Ul & Sl & Fl & Pl & Bl & _). rewrite El in E |- *.
      destruct (IH l l1 W I ltac:(lia) El) as (Q1 & Q2 & Q3). set (ol := overlaps_out fuel shs low high l) in *. clearbody ol.
      set (n1 := set_ins (drop_overlaps (S (List.length (n_ins n))) low high [] (n_ins n)) n) in *.
      assert (Hins : forall i, In i (n_ins n1) <-> In i (n_ins n) /\ overlaps i low high = false).
      { intros i. unfold n1. cbn [n_ins set_ins]. rewrite drop_spec by lia. cbn. tauto. }
      assert (Sn : incl (n_ins n1) (n_ins n)) by (intros i Hi; apply Hins; exact Hi).
      assert (T1 : n_ts n1 = List.length shs) by exact T2.
      assert (I1 : inv shs (Node n1 l1 r)).
      { apply inv_intro; try assumption.
        - unfold core in *. cbn [v_ins v_pos view] in *. eapply incl_Forall; eassumption.
        - destruct B as [B1 B2]. split; [exact B1|]. eapply incl_Forall; eassumption.
        - eapply from_below; eassumption.
        - eapply from_klt_l; [exact Fl|exact F]. }
      assert (St : forall y i, In y (views shs (Node n l r)) -> In i (v_ins y) -> overlaps i low high = false -> stays (views shs (Node n1 l1 r)) ol y i).
      { intros y i Hy Hi Ho. rewrite views_up in Hy |- * by assumption. apply in_app_iff in Hy. destruct Hy as [Hy|[<-|Hy]].
        - destruct (Q3 y i Hy Hi Ho) as [(x & X1 & X2)|K]; [left; exists x; split; [apply in_or_app; left; exact X1|exact X2]|right; exact K].
        - left. exists (view n1). split; [apply in_or_app; right; left; reflexivity|]. repeat split. apply Hins. split; assumption.
        - left. exists y. split; [apply in_or_app; right; right; exact Hy|]. auto. }
      assert (Rf : Permutation (refs shs (Node n l r)) (map d_ref ol ++ refs shs (Node n1 l1 r))).
      { unfold refs in *. rewrite !views_up by assumption. rewrite !map_app, app_assoc. apply Permutation_app; [exact Q1|reflexivity]. }
      assert (Tr : forall out2 t2, Permutation (refs shs (Node n1 l1 r)) (map d_ref out2 ++ refs shs t2) -> Forall (gone shs) out2 ->
        (forall y i, In y (views shs (Node n1 l1 r)) -> In i (v_ins y) -> overlaps i low high = false -> stays (views shs t2) out2 y i) ->
        Permutation (refs shs (Node n l r)) (map d_ref (ol ++ out2) ++ refs shs t2) /\ Forall (gone shs) (ol ++ out2) /\
        forall y i, In y (views shs (Node n l r)) -> In i (v_ins y) -> overlaps i low high = false -> stays (views shs t2) (ol ++ out2) y i).
      { intros out2 t2 Y1 Y2 Y3. split; [rewrite Rf, Y1, map_app, app_assoc; reflexivity|]. split; [apply Forall_app; split; assumption|].
        intros y i Hy Hi Ho. destruct (St y i Hy Hi Ho) as [(x & X1 & X2 & X3 & X4 & X5)|(d & X1 & X2)].
        - destruct (Y3 x i X1 X5 Ho) as [(z & Z1 & Z2 & Z3 & Z4 & Z5)|(d & Z1 & Z2 & Z3 & Z4)].
          + left. exists z. repeat (split; [congruence||assumption|]). exact Z5.
          + right. exists d. split; [apply in_or_app; right; exact Z1|]. repeat (split; [congruence|]). exact Z4.
        - right. exists d. split; [apply in_or_app; left; exact X1|exact X2]. }
      change (n_pos n1) with (n_pos n) in *. change (n_id n1) with (n_id n) in *.
      destruct (n_ins n1) as [|i0 ins0] eqn:Ei.
      * destruct (remove_root shs n1 l1 r W T1 Ei I1) as (X & Y & _). destruct (out_root shs n1 l1 r W T1 Ei I1) as (d & Eo & Gd & Z). cbv zeta in X, Y, Z.
        change (n_pos n1) with (n_pos n) in *. change (n_id n1) with (n_id n) in *. rewrite Eo.
        set (t2 := remove shs (n_pos n) (n_id n) (Node n1 l1 r)) in *.
        assert (S2 : (size t2 <= size l1 + size r)%nat).
        { rewrite <- !(views_length shs). destruct Z as [[_ Z]|(R & Z1 & Z2)]; [rewrite Z, app_length; lia|].
          rewrite Z2, Z1, !app_length. cbn. lia. }
        assert (Rm : Permutation (refs shs (Node n1 l1 r)) (map d_ref [d] ++ refs shs t2)).
        { unfold refs. rewrite views_up by assumption. destruct Z as [[Z0 Z]|(R & Z1 & Z2)].
          - rewrite Z, !map_app. cbn [map app]. unfold d_ref. rewrite Z0. change (v_ref (view n1)) with (n_ref n1). symmetry. apply Permutation_middle.
          - rewrite Z2, Z1, !map_app. cbn [map app]. rewrite Permutation_middle. apply Permutation_app_head. apply perm_swap. }
        assert (Sm : forall y i, In y (views shs (Node n1 l1 r)) -> In i (v_ins y) -> stays (views shs t2) [d] y i).
        { intros y i Hy Hi. rewrite views_up in Hy by assumption. apply in_app_iff in Hy. destruct Hy as [Hy|[<-|Hy]].
          - left. exists y. split; [|auto]. destruct Z as [[_ Z]|(R & _ & Z)]; rewrite Z; apply in_or_app; left; exact Hy.
          - change (v_ins (view n1)) with (n_ins n1) in Hi. rewrite Ei in Hi. destruct Hi.
          - destruct Z as [[_ Z]|(R & Z1 & Z2)].
            + left. exists y. split; [|auto]. rewrite Z. apply in_or_app. right. exact Hy.
            + rewrite Z1 in Hy. destruct Hy as [<-|Hy].
              * right. exists d. split; [left; reflexivity|]. split; [reflexivity|]. split; [reflexivity|]. exact Hi.
              * left. exists y. split; [|auto]. rewrite Z2. apply in_or_app. right. right. exact Hy. }
        destruct (Z.leb_spec (n_pos n) high).
        -- destruct (IH t2 t' W X ltac:(lia) E) as (O1 & O2 & O3). rewrite <- app_assoc.
           apply Tr; [rewrite Rm, O1, map_app, app_assoc; reflexivity|constructor; assumption|].
           intros y i Hy Hi Ho. destruct (Sm y i Hy Hi) as [(x & X1 & X2 & X3 & X4 & X5)|(d' & X1 & X2)].
           ++ destruct (O3 x i X1 X5 Ho) as [(z & Z1 & Z2 & Z3 & Z4 & Z5)|(d' & Z1 & Z2 & Z3 & Z4)].
              ** left. exists z. repeat (split; [congruence||assumption|]). exact Z5.
              ** right. exists d'. split; [apply in_or_app; right; exact Z1|]. repeat (split; [congruence|]). exact Z4.
           ++ right. exists d'. split; [apply in_or_app; left; exact X1|exact X2].
        -- injection E as <-. apply Tr; [exact Rm|constructor; [exact Gd|constructor]|]. intros y i Hy Hi _. apply Sm; assumption.
      * destruct (Z.ltb_spec high (n_pos n)).
        -- injection E as <-. rewrite <- (app_nil_r ol). apply Tr; [reflexivity|constructor|]. intros y i Hy Hi _. left. exists y. auto.
        -- destruct (remove_overlaps_spec shs low high fuel r W J ltac:(lia)) as (r1 & Er & Ir & _). rewrite Er in E. injection E as <-.
           destruct (IH r r1 W J ltac:(lia) Er) as (O1 & O2 & O3). apply Tr; [|exact O2|].
           ++ unfold refs in *. rewrite !views_up by assumption. rewrite !map_app. cbn [map]. rewrite O1.
              rewrite (Permutation_app_comm (map d_ref _) (map v_ref (views shs l1) ++ _)). rewrite <- app_assoc. apply Permutation_app_head. cbn [app]. apply perm_skip. apply Permutation_app_comm.
           ++ intros y i Hy Hi Ho. rewrite views_up in Hy |- * by assumption. apply in_app_iff in Hy. destruct Hy as [Hy|[<-|Hy]].
              ** left. exists y. split; [apply in_or_app; left; exact Hy|auto].
              ** left. exists (view n1). split; [apply in_or_app; right; left; reflexivity|auto].
              ** destruct (O3 y i Hy Hi Ho) as [(x & X1 & X2)|K]; [left; exists x; split; [apply in_or_app; right; right; exact X1|exact X2]|right; exact K].
Qed.

(** ** Shifts of a node that was taken out *)
Definition slide (p : Z) (s : shift) : Z := if sh_idx s <=? p then p + sh_amt s else p.
Definition moves (n n2 : nd) (p : Z) : Prop := n_pos n2 = p /\ sturdy n2 /\ n_ins n2 <> [] /\ n_ref n2 = n_ref n.
Lemma dead_shift : forall s (n : nd) l r, sturdy n -> n_ins n <> [] -> (n_ts n < sh_ts s)%nat ->
  moves n (apply_shift s n l r) (slide (n_pos n) s) /\ n_ts (apply_shift s n l r) = sh_ts s.
Proof.
  intros s n l r S N T. destruct (S N) as [C [B1 B2]]. split; [|apply apply_shift_ts; exact T]. unfold apply_shift.
  destruct (Nat.leb_spec (sh_ts s) (n_ts n)); [lia|]. cbv zeta. cbn [n_max set_ts]. destruct (Z.ltb_spec (n_max n) (sh_idx s)) as [Q|Q].
  - unfold moves, slide. cbn [n_pos n_ins n_ref set_ts] in *. rewrite (proj2 (Z.leb_gt _ _)) by (cbn in B1; lia). split; [reflexivity|]. split; [exact S|]. auto.
  - cbn [n_pos set_max set_ts]. unfold slide. cbn in B1, B2. unfold core in C. cbn [v_ins v_pos view] in C.
    destruct (Z.leb_spec (sh_idx s) (n_pos n)) as [L|L];
      match goal with |- moves _ (update_max ?n2 _ _) _ => set (n3 := n2) end;
      destruct (update_max_spec n3 l r) as (U1 & U2 & U3 & U4 & _); 
      pose proof (f_equal v_ref U1) as E1; pose proof (f_equal v_pos U1) as E2; pose proof (f_equal v_ins U1) as E4; cbn [v_ref v_pos v_ins view] in E1, E2, E4;
      unfold moves; rewrite E1, E2, E4.
    + split; [reflexivity|]. split; [|split; [unfold n3; cbn; destruct (n_ins n); [congruence|discriminate]|reflexivity]].
      intros _. rewrite U1. split.
      * unfold core. cbn. unfold ins_shift. rewrite Forall_map. eapply Forall_impl; [|exact C]. cbn. intros. lia.
      * split; [cbn in U3 |- *; lia|]. cbn [v_ins view n_ins set_ins]. exact U4.
    + split; [reflexivity|]. split; [|split; [exact N|reflexivity]].
      intros _. rewrite U1. split; [exact C|]. split; [|exact U4]. change (v_pos (view n3)) with (n_pos n).
      destruct (n_ins n) as [|i ins] eqn:Ei; [congruence|]. inversion C as [|? ? C1 _]; subst. change (n_ins n3) with (n_ins n) in U4. rewrite Ei in U4. inversion U4 as [|? ? D1 _]; subst. lia.
Qed.
Lemma dead_shifts : forall l r ss (n : nd), sturdy n -> n_ins n <> [] -> (forall j s, nth_error ss j = Some s -> sh_ts s = S (n_ts n + j)) ->
  moves n (fold_sh l r ss n) (fold_left slide ss (n_pos n)).
Proof.
  intros l r ss. induction ss as [|s ss IH]; intros n St N H; [exact (conj eq_refl (conj St (conj N eq_refl)))|]. cbn [fold_left fold_sh].
  pose proof (H 0%nat s eq_refl) as Hs. destruct (dead_shift s n l r St N ltac:(lia)) as [(A & B & C & D) T].
  destruct (IH (apply_shift s n l r) B C) as (A' & B' & C' & D').
  { intros j s' Hj. rewrite T, Hs. rewrite (H (S j) s' Hj). lia. }
  unfold moves. rewrite <- A. unfold fold_sh in A', B', C', D'. split; [exact A'|]. split; [exact B'|]. split; [exact C'|]. congruence.
Qed.
Lemma dead_apply : forall shs (n : nd) l r, wf_shs shs -> (n_ts n <= List.length shs)%nat -> sturdy n -> n_ins n <> [] ->
  moves n (apply_shifts shs n l r) (fold_left slide (skipn (n_ts n) shs) (n_pos n)).
Proof.
  intros shs n l r W T S N. rewrite apply_shifts_eq by assumption. apply dead_shifts; [assumption|assumption|]. intros j s H. eapply wf_skipn; eassumption.
Qed.
Lemma apply_ref : forall shs (n : nd) l r, n_ref (apply_shifts shs n l r) = n_ref n.
Proof.
  intros shs n l r. unfold apply_shifts. destruct (rev shs); [reflexivity|]. destruct (_ <=? _)%nat; [reflexivity|].
  generalize (skipn (shift_start (n_ts n) shs (List.length shs - 1)) shs). intro ss. revert n. induction ss as [|x ss IH]; intro n; [reflexivity|].
  cbn [fold_left]. rewrite IH. apply apply_shift_same.
Qed.
Lemma apply_ts_le : forall shs (n : nd) l r, wf_shs shs -> (n_ts n <= List.length shs)%nat -> n_ts (apply_shifts shs n l r) = List.length shs.
Proof. exact sync_ts. Qed.
Lemma apply_ins : forall shs (n : nd) l r, n_ins (apply_shifts shs n l r) = [] <-> n_ins n = [].
Proof.
  intros shs n l r. unfold apply_shifts. destruct (rev shs); [reflexivity|]. destruct (_ <=? _)%nat; [reflexivity|].
  generalize (skipn (shift_start (n_ts n) shs (List.length shs - 1)) shs). intro ss. revert n. induction ss as [|x ss IH]; intro n; [reflexivity|].
  cbn [fold_left]. rewrite IH. unfold apply_shift. destruct (_ <=? _)%nat; [reflexivity|]. cbv zeta. destruct (_ <? _); [reflexivity|].
  destruct (_ <=? _); cbn; [|reflexivity]. destruct (n_ins n); cbn; split; congruence.
Qed.

(** ** Looking for a node *)
Lemma node_at_refs : forall shs h (t : tree), match node_at h t with Some _ => In h (refs shs t) | None => ~ In h (refs shs t) end.
Proof.
  intros shs h. unfold refs. induction t as [|n l IHl r IHr]; [intros []|]. cbn [node_at views]. rewrite map_app. cbn [map]. change (v_ref (view (apply_shifts shs n l r))) with (n_ref (apply_shifts shs n l r)).
  rewrite apply_ref. destruct (Nat.eqb_spec (n_ref n) h) as [->|Q]; [apply in_or_app; right; left; reflexivity|].
  destruct (node_at h l); [apply in_or_app; left; exact IHl|]. destruct (node_at h r); [apply in_or_app; right; right; exact IHr|].
  rewrite in_app_iff. cbn [In]. tauto.
Qed.
Lemma touch_missing : forall shs h (t : tree), node_at h t = None -> touch shs h t = (t, None).
Proof.
  intros shs h. induction t as [|n l IHl r IHr]; [reflexivity|]. cbn [node_at touch]. destruct (n_ref n =? h)%nat; [discriminate|].
  destruct (node_at h l); [discriminate|]. intro H. rewrite (IHl eq_refl), (IHr H). reflexivity.
Qed.
Lemma pos_missing : forall (t : itree) h, node_at h (t_root t) = None -> it_pos t h = (t, None).
Proof. intros [r shs ts nx] h H. unfold it_pos. cbn [t_root t_shifts] in *. rewrite (touch_missing _ _ _ H). reflexivity. Qed.
Lemma dead_at_in : forall h (ds : list dead), match dead_at h ds with Some d => In d ds /\ d_ref d = h | None => Forall (fun d => d_ref d <> h) ds end.
Proof.
  intros h ds. unfold dead_at. destruct (find _ ds) as [d|] eqn:E.
  - apply find_some in E. destruct E as [E1 E2]. apply Nat.eqb_eq in E2. auto.
  - apply Forall_forall. intros d Hd. pose proof (find_none _ _ E d Hd) as K. apply Nat.eqb_neq in K. exact K.
Qed.

(** ** Histories *)
Lemma dt_run_snoc : forall tr (o : iop), dt_run (tr ++ [o]) = dt_step (dt_run tr) o.
Proof. intros. unfold dt_run. rewrite fold_left_app. reflexivity. Qed.
Definition kept (shs : list shift) (d : dead) : Prop := (n_ts (d_nd d) <= List.length shs)%nat /\ sturdy (d_nd d).
Definition dinv (d : dtree V) : Prop :=
  NoDup (map d_ref (dt_dead d) ++ refs (t_shifts (dt_tree d)) (t_root (dt_tree d))) /\
  Forall (fun c => (d_ref c < t_next (dt_tree d))%nat) (dt_dead d) /\ Forall (kept (t_shifts (dt_tree d))) (dt_dead d).

Lemma it_pos_same : forall (t : itree) h, t_next (fst (it_pos t h)) = t_next t /\ t_shifts (fst (it_pos t h)) = t_shifts t.
Proof. intros t h. unfold it_pos. destruct (touch _ _ _). auto. Qed.
Lemma refs_tviews : forall t : itree, refs (t_shifts t) (t_root t) = map v_ref (tviews t).
Proof. reflexivity. Qed.

Lemma kept_more : forall shs s (d : dead), kept shs d -> kept (shs ++ [s]) d.
Proof. intros shs s d [A B]. split; [rewrite app_length; lia|exact B]. Qed.

(** the tree after a shift, in terms of what removeOverlaps leaves *)
Lemma shift_parts : forall (t t' : itree) low high amt, tinv t -> it_remove_and_shift t low high amt = Some t' ->
  exists r, remove_overlaps (S (size (t_root t))) (t_shifts t) low high (t_root t) = Some r /\ t_next t' = t_next t /\
    tviews t' = map (mvw low amt) (views (t_shifts t) r) /\
    ((amt = 0 /\ t_shifts t' = t_shifts t) \/ t_shifts t' = t_shifts t ++ [Sh low amt (S (List.length (t_shifts t)))]).
Proof.
  intros t t' low high amt (W & K & I & N & L) E. unfold it_remove_and_shift in E.
  destruct (remove_overlaps_spec (t_shifts t) low high (S (size (t_root t))) (t_root t) W I ltac:(lia)) as (r & Er & Ir & _). rewrite Er in E. exists r. split; [exact Er|].
  destruct (Z.eqb_spec amt 0) as [->|Z0]; injection E as <-; (split; [reflexivity|]).
  - unfold tviews. cbn [t_shifts t_root]. split; [|left; auto]. rewrite <- (map_id (views (t_shifts t) r)) at 1. apply map_ext. intros [[[rx px] ix] lx]. unfold mvw. cbn [v_pos v_ref v_id v_ins].
    rewrite Z.add_0_r. unfold ins_shift. rewrite <- (map_id lx) at 1. destruct (low <=? px); [|rewrite map_id; reflexivity]. f_equal. apply map_ext. intros []. cbn. rewrite !Z.add_0_r. reflexivity.
  - unfold tviews. cbn [t_shifts t_root]. rewrite K. split; [|right; reflexivity]. apply shift_views; assumption.
Qed.

Lemma dt_spec : forall tr : list iop, calm tr -> exists d, dt_run tr = Some d /\ it_run tr = Some (dt_tree d) /\ dinv d.
Proof.
  intros tr. induction tr as [|o tr IH] using rev_ind; intros C.
  - exists dt_empty. split; [reflexivity|]. split; [reflexivity|]. repeat split; constructor.
  - destruct (IH (calm_prefix tr o C)) as (d & R & Rt & (D1 & D2 & D3)). destruct (run_spec tr (calm_prefix tr o C)) as (t & R' & T & S0 & P & _).
    rewrite Rt in R'. injection R' as R'. rewrite dt_run_snoc, it_run_snoc, R, Rt. pose proof (calm_last tr o C) as Q.
    destruct C as [S _]. apply Forall_app in S. destruct S as [_ S]. inversion S as [|? ? S1 _]; subst. clear S.
    destruct o as [id low high v|id pos|low high amt|h]; cbn [dt_step it_step].
    + eexists. split; [reflexivity|]. split; [reflexivity|]. cbn [dt_tree dt_dead]. cbn in S1.
      destruct (step_add (dt_tree d) id low high v T ltac:(lia)) as (X1 & X2 & _).
      assert (Hn : t_next (fst (it_add (dt_tree d) id low high v)) = S (t_next (dt_tree d))) by (unfold it_add; destruct (add _ _ _ _ _ _ _); reflexivity).
      assert (Hr : refs (t_shifts (dt_tree d)) (t_root (fst (it_add (dt_tree d) id low high v))) = refs (t_shifts (dt_tree d)) (t_root (dt_tree d)) \/
        exists A B, refs (t_shifts (dt_tree d)) (t_root (dt_tree d)) = A ++ B /\ refs (t_shifts (dt_tree d)) (t_root (fst (it_add (dt_tree d) id low high v))) = A ++ t_next (dt_tree d) :: B).
      { destruct T as (W & K & I & _). unfold it_add. rewrite K. destruct (add (t_shifts (dt_tree d)) (List.length (t_shifts (dt_tree d))) (t_next (dt_tree d)) low id (Iv low high v) (t_root (dt_tree d))) as [r h] eqn:E.
        destruct (add_spec _ _ _ _ (Iv low high v) _ _ _ W I eq_refl ltac:(cbn; lia) E) as (_ & _ & Z). exact (refs_added _ _ _ _ _ _ _ _ Z). }
      unfold dinv. cbn [dt_tree dt_dead]. rewrite X2, Hn. split; [|split; [eapply Forall_impl; [|exact D2]; cbn; intros; lia|exact D3]].
      destruct Hr as [->|(A & B & E1 & ->)]; [exact D1|]. rewrite E1 in D1.
      apply NoDup_Add with (a := t_next (dt_tree d)) (l := map d_ref (dt_dead d) ++ A ++ B); [rewrite !app_assoc; apply Add_app|].
      split; [exact D1|]. intro K. apply in_app_iff in K. destruct K as [K|K].
      * apply in_map_iff in K. destruct K as (c & K1 & K2). rewrite Forall_forall in D2. specialize (D2 c K2). cbn in D2. lia.
      * destruct T as (_ & _ & _ & _ & L). rewrite E1 in L. rewrite Forall_forall in L. specialize (L _ K). cbn in L. lia.
    + eexists. split; [reflexivity|]. split; [reflexivity|]. destruct (step_find (dt_tree d) id pos T) as (_ & X2 & X3). unfold dinv. cbn [dt_tree dt_dead].
      assert (Hn : t_next (fst (it_find (dt_tree d) id pos)) = t_next (dt_tree d)) by (unfold it_find; destruct (search _ _ _ _); reflexivity).
      rewrite refs_tviews, X2, X3, Hn, <- refs_tviews. auto.
    + cbn in S1. destruct (step_shift (dt_tree d) low high amt T ltac:(lia)) as (t' & X1 & X2 & X3 & _).
      { destruct Q as [Q|Q]; [left; exact Q|right]. destruct (P Q). split; [assumption|]. split; [lia|assumption]. }
      unfold dt_remove_and_shift. rewrite X1. eexists. split; [reflexivity|]. split; [reflexivity|].
      destruct (shift_parts _ _ _ _ _ T X1) as (r & Er & Hn & Hv & Hs). destruct T as (W & K & I & N & L).
      destruct (out_overlaps (t_shifts (dt_tree d)) low high (S (size (t_root (dt_tree d)))) _ _ W I ltac:(lia) Er) as (O1 & O2 & _). unfold dinv. cbn [dt_tree dt_dead]. rewrite Hn, refs_tviews, Hv.
      set (out := overlaps_out (S (size (t_root (dt_tree d)))) (t_shifts (dt_tree d)) low high (t_root (dt_tree d))) in *.
      assert (Hm : map v_ref (map (mvw low amt) (views (t_shifts (dt_tree d)) r)) = refs (t_shifts (dt_tree d)) r).
      { unfold refs. rewrite map_map. apply map_ext. intros x. unfold mvw. destruct (low <=? v_pos x); reflexivity. }
      rewrite Hm. split; [|split].
      * rewrite map_app, <- app_assoc. eapply Permutation_NoDup; [|exact D1]. rewrite O1. rewrite app_assoc, (Permutation_app_comm (map d_ref (dt_dead d))), <- app_assoc. reflexivity.
      * apply Forall_app; split; [|exact D2]. apply Forall_forall. intros c Hc. rewrite Forall_forall in L. apply L. eapply Permutation_in; [symmetry; exact O1|].
        apply in_or_app. left. apply in_map. exact Hc.
      * apply Forall_app; split.
        -- eapply Forall_impl; [|exact O2]. intros c [C1 C2]. split; [|exact C2]. rewrite C1. destruct Hs as [[_ ->]| ->]; [lia|rewrite app_length; lia].
        -- destruct Hs as [[_ ->]| ->]; [exact D3|]. eapply Forall_impl; [|exact D3]. intros c. apply kept_more.
    + eexists. split; [reflexivity|]. unfold dt_pos. pose proof (node_at_refs (t_shifts (dt_tree d)) h (t_root (dt_tree d))) as Na.
      destruct (node_at h (t_root (dt_tree d))) as [n|] eqn:En.
      * destruct (step_pos (dt_tree d) h T S0) as (_ & X2 & X3 & _). destruct (it_pos_same (dt_tree d) h) as [Hn _].
        destruct (it_pos (dt_tree d) h) as [t' p] eqn:Ep. cbn [fst] in *. split; [reflexivity|]. unfold dinv. cbn [dt_tree dt_dead].
        rewrite refs_tviews, X2, X3, Hn, <- refs_tviews. auto.
      * rewrite (pos_missing _ _ En). cbn [fst]. destruct (dead_at h (dt_dead d)) as [c|] eqn:Ec; cbn [fst]; [|split; [reflexivity|repeat split; assumption]].
        split; [reflexivity|]. pose proof (dead_at_in h (dt_dead d)) as Hc. rewrite Ec in Hc. destruct Hc as [Hc1 Hc2].
        unfold dinv. cbn [dt_tree dt_dead].
        set (n := apply_shifts (t_shifts (dt_tree d)) (d_nd c) (peeked d (d_left c)) (peeked d (d_right c))).
        assert (Hn : n_ref n = h) by (unfold n; rewrite apply_ref; exact Hc2).
        assert (Hm : map d_ref (map (fun e => if (d_ref e =? h)%nat then Dead n (d_left e) (d_right e) else e) (dt_dead d)) = map d_ref (dt_dead d)).
        { rewrite map_map. apply map_ext. intro e. destruct (Nat.eqb_spec (d_ref e) h) as [<-|]; [exact Hn|reflexivity]. }
        rewrite Hm. split; [exact D1|]. rewrite !Forall_map. split.
        -- eapply Forall_impl; [|exact D2]. intros e He. destruct (Nat.eqb_spec (d_ref e) h) as [<-|]; [unfold d_ref; cbn [d_nd]; rewrite Hn; exact He|exact He].
        -- rewrite Forall_forall in D3. destruct T as (W & _). pose proof (D3 c Hc1) as [K1 K2]. apply Forall_forall. intros e He. destruct (Nat.eqb_spec (d_ref e) h); [|exact (D3 e He)].
           split; cbn [d_nd].
           ++ unfold n. rewrite sync_ts by assumption. lia.
           ++ intro Ni. unfold n in Ni |- *. rewrite apply_ins in Ni. destruct (dead_apply _ _ (peeked d (d_left c)) (peeked d (d_right c)) W K1 K2 Ni) as (_ & M2 & M3 & _). exact (M2 M3).
Qed.

(** ** The handle of a value that no edit touches *)
Definition dpos (shs : list shift) (n : nd) : Z := fold_left slide (skipn (n_ts n) shs) (n_pos n).
Definition place (d : dtree V) (h : nat) (id p len : Z) (v : V) : Prop :=
  In (h, id, p, p + len, v) (ents (tviews (dt_tree d))) \/
  exists c, In c (dt_dead d) /\ d_ref c = h /\ n_ins (d_nd c) <> [] /\ dpos (t_shifts (dt_tree d)) (d_nd c) = p.

Lemma nodup_left : forall (l m : list nat), NoDup (l ++ m) -> NoDup l.
Proof.
  intros l m. induction l as [|x l IH]; [constructor|]. cbn [app]. intro H. inversion H as [|? ? H1 H2]; subst. constructor; [|auto].
  intro K. apply H1. apply in_or_app. left. exact K.
Qed.
Lemma nodup_dead : forall (d : dtree V) c c', dinv d -> In c (dt_dead d) -> In c' (dt_dead d) -> d_ref c = d_ref c' -> c = c'.
Proof.
  intros d c c' [D _]. apply nodup_left in D. revert D. generalize (dt_dead d). intro l. induction l as [|x l IH]; [contradiction|]. cbn [map]. intros D A B E.
  inversion D as [|? ? D1 D2]; subst. destruct A as [->|A], B as [->|B]; auto; exfalso; apply D1; [rewrite E|rewrite <- E]; apply in_map; assumption.
Qed.

Lemma dpos_more : forall shs low amt (n : nd) ts, (n_ts n <= List.length shs)%nat -> dpos (shs ++ [Sh low amt ts]) n = (if low <=? dpos shs n then dpos shs n + amt else dpos shs n).
Proof.
  intros shs low amt n ts H. unfold dpos. rewrite skipn_app, fold_left_app. replace (n_ts n - List.length shs)%nat with 0%nat by lia. reflexivity.
Qed.

Lemma untouched_snoc : forall b p len (o : iop), untouched p len (b ++ [o]) <->
  untouched p len b /\ match o with OShift low high _ => high < follow p b \/ follow p b + len < low | _ => True end.
Proof.
  intros b. induction b as [|x b IH]; intros p len o; [cbn; tauto|]. cbn [app untouched]. rewrite IH. unfold follow. cbn [fold_left]. tauto.
Qed.

Lemma dt_place : forall b a id low high v, calm (a ++ OAdd id low high v :: b) -> untouched low (high - low) b ->
  exists da d, dt_run a = Some da /\ dt_run (a ++ OAdd id low high v :: b) = Some d /\
    place d (snd (it_add (dt_tree da) id low high v)) id (follow low b) (high - low) v.
Proof.
  intros b. induction b as [|o b IH] using rev_ind; intros a id low high v C U.
  - pose proof (calm_prefix _ _ C) as Ca. destruct (dt_spec a Ca) as (d & R & Rt & _). exists d. rewrite dt_run_snoc, R. cbn [dt_step]. eexists. split; [reflexivity|]. split; [reflexivity|].
    left. cbn [dt_tree follow fold_left]. destruct (run_spec a Ca) as (t & R' & T & _). rewrite Rt in R'. injection R' as <-.
    destruct C as [S _]. apply Forall_app in S. destruct S as [_ S]. inversion S as [|? ? S1 _]; subst. cbn in S1.
    destruct (step_add (dt_tree d) id low high v T ltac:(lia)) as (_ & _ & _ & (A & B & _ & E) & _). rewrite E. apply in_or_app. right. left. replace (low + (high - low)) with high by lia. reflexivity.
  - rewrite app_comm_cons, app_assoc in C |- *. apply untouched_snoc in U. destruct U as [U Uo]. pose proof (calm_prefix _ _ C) as C'.
    destruct (IH a id low high v C' U) as (da & d & Ra & R & P). clear IH. destruct (dt_spec _ C') as (d' & R' & Rt & DI). rewrite R in R'. injection R' as <-.
    destruct (dt_spec _ C) as (d2 & R2 & Rt2 & _). exists da, d2. split; [exact Ra|]. split; [exact R2|]. rewrite dt_run_snoc, R in R2. rewrite follow_snoc.
    destruct (run_spec _ C') as (t & Rt' & T & S0 & _). rewrite Rt in Rt'. injection Rt' as <-.
    set (h := snd (it_add (dt_tree da) id low high v)) in *. set (len := high - low) in *. set (p := follow low b) in *. clearbody h len p.
    destruct C as [S _]. apply Forall_app in S. destruct S as [_ S]. inversion S as [|? ? S1 _]; subst. clear S Ra da R Rt C' U.
    destruct o as [id' low' high' v'|id' pos|low' high' amt|g]; cbn [dt_step moved] in R2 |- *.
    + injection R2 as <-. cbn in S1. destruct (step_add (dt_tree d) id' low' high' v' T ltac:(lia)) as (_ & X2 & _ & (A & B & E1 & E2) & _).
      destruct P as [P|(c & P1 & P2 & P3 & P4)]; [left|right; exists c; cbn [dt_tree dt_dead]; rewrite X2; auto].
      cbn [dt_tree]. rewrite E2. rewrite E1 in P. apply in_app_iff in P. apply in_app_iff. cbn [In]. tauto.
    + injection R2 as <-. destruct (step_find (dt_tree d) id' pos T) as (_ & X2 & X3). unfold place. cbn [dt_tree dt_dead]. rewrite X2, X3. exact P.
    + unfold dt_remove_and_shift in R2. destruct (it_remove_and_shift (dt_tree d) low' high' amt) as [t'|] eqn:Es; [|discriminate]. injection R2 as <-.
      destruct (shift_parts _ _ _ _ _ T Es) as (r & Er & _ & Hv & Hs). destruct T as (W & K & I & N & L).
      destruct (out_overlaps (t_shifts (dt_tree d)) low' high' (Datatypes.S (size (t_root (dt_tree d)))) _ _ W I ltac:(lia) Er) as (_ & O2 & O3).
      set (out := overlaps_out (Datatypes.S (size (t_root (dt_tree d)))) (t_shifts (dt_tree d)) low' high' (t_root (dt_tree d))) in *.
      assert (Hd : forall c, kept (t_shifts (dt_tree d)) c -> dpos (t_shifts (dt_tree d)) (d_nd c) = p -> dpos (t_shifts t') (d_nd c) = if low' <=? p then p + amt else p).
      { intros c [K1 _] <-. destruct Hs as [[-> ->]| ->]; [rewrite Z.add_0_r; destruct (_ <=? _); reflexivity|]. apply dpos_more. exact K1. }
      destruct P as [P|(c & P1 & P2 & P3 & P4)].
      * apply ents_in in P. destruct P as (x & i & X1 & X2 & X3). injection X3 as Y1 Y2 Y3 Y4 Y5.
        assert (Hc : iv_low i = v_pos x).
        { pose proof (inv_core _ _ I) as Cr. rewrite Forall_forall in Cr. specialize (Cr x X1). unfold core in Cr. rewrite Forall_forall in Cr. apply (Cr i X2). }
        destruct (O3 x i X1 X2) as [(y & Z1 & Z2 & Z3 & Z4 & Z5)|(c & Z1 & Z2 & Z3 & Z4)].
        { unfold overlaps. rewrite <- Y3, <- Y4. destruct Uo as [Uo|Uo].
          - rewrite (proj2 (Z.leb_gt p high')) by lia. reflexivity.
          - rewrite (proj2 (Z.leb_gt low' (p + len))) by lia. apply andb_false_r. }
        -- left. cbn [dt_tree]. rewrite Hv. apply ents_in. exists (mvw low' amt y). unfold mvw. rewrite Z4, <- Hc, <- Y3.
           destruct (Z.leb_spec low' p) as [Q|Q].
           ++ exists (Iv (iv_low i + amt) (iv_high i + amt) (iv_val i)). split; [|split; [|cbn [v_ref v_id v_ins iv_low iv_high iv_val]; rewrite <- Y4, <- Y3, Y1, Y2, Z2, Z3, Y5; f_equal; f_equal; lia]].
              ** apply in_map_iff. exists y. split; [|exact Z1]. unfold mvw. rewrite Z4, <- Hc, <- Y3, (proj2 (Z.leb_le _ _) Q). reflexivity.
              ** cbn [v_ins]. unfold ins_shift. apply in_map_iff. exists i. auto.
           ++ exists i. split; [|split; [exact Z5|rewrite <- Y4, <- Y3, Y1, Y2, Z2, Z3, Y5; reflexivity]].
              apply in_map_iff. exists y. split; [|exact Z1]. unfold mvw. rewrite Z4, <- Hc, <- Y3, (proj2 (Z.leb_gt _ _) Q). reflexivity.
        -- right. exists c. cbn [dt_dead dt_tree]. split; [apply in_or_app; left; exact Z1|]. split; [congruence|]. split; [intro E; rewrite E in Z4; destruct Z4|].
           rewrite Forall_forall in O2. destruct (O2 c Z1) as [G1 G2]. apply Hd; [split; [lia|exact G2]|]. unfold dpos. rewrite G1, skipn_all. cbn [fold_left]. congruence.
      * right. exists c. cbn [dt_dead dt_tree]. split; [apply in_or_app; right; exact P1|]. split; [exact P2|]. split; [exact P3|].
        destruct DI as (_ & _ & D3). rewrite Forall_forall in D3. apply Hd; [apply D3; exact P1|exact P4].
    + injection R2 as <-. unfold dt_pos. pose proof (node_at_refs (t_shifts (dt_tree d)) g (t_root (dt_tree d))) as Na.
      destruct (node_at g (t_root (dt_tree d))) as [n|] eqn:En.
      * destruct (step_pos (dt_tree d) g T S0) as (_ & X2 & X3 & _). destruct (it_pos (dt_tree d) g) as [t' q]. cbn [fst] in X2, X3 |- *.
        unfold place. cbn [dt_tree dt_dead]. rewrite X2, X3. exact P.
      * pose proof (dead_at_in g (dt_dead d)) as Hc. destruct (dead_at g (dt_dead d)) as [c'|]; [|exact P]. destruct Hc as [H1 H2]. cbn [fst].
        destruct P as [P|(c & P1 & P2 & P3 & P4)]; [left; exact P|]. right. cbn [dt_tree dt_dead].
        destruct (Nat.eqb_spec (d_ref c) g) as [Q|Q].
        -- assert (c = c') by (apply (nodup_dead d); [exact DI|exact P1|exact H1|congruence]). subst c'.
           set (n := apply_shifts (t_shifts (dt_tree d)) (d_nd c) (peeked d (d_left c)) (peeked d (d_right c))).
           exists (Dead n (d_left c) (d_right c)). split; [apply in_map_iff; exists c; split; [rewrite Q, Nat.eqb_refl; reflexivity|exact P1]|].
           destruct DI as (_ & _ & D3). rewrite Forall_forall in D3. destruct (D3 c P1) as [K1 K2]. destruct T as (W & _).
           destruct (dead_apply _ _ (peeked d (d_left c)) (peeked d (d_right c)) W K1 K2 P3) as (M1 & _ & M3 & M4). fold n in M1, M3, M4.
           unfold d_ref. cbn [d_nd]. split; [unfold d_ref in P2; congruence|]. split; [exact M3|]. unfold dpos. unfold n at 1. rewrite sync_ts by assumption. rewrite skipn_all. cbn [fold_left]. rewrite M1. exact P4.
        -- exists c. split; [apply in_map_iff; exists c; split; [rewrite (proj2 (Nat.eqb_neq _ _) Q); reflexivity|exact P1]|auto].
Qed.

Lemma place_pos : forall tr (d : dtree V) h id p len v, calm tr -> dt_run tr = Some d -> place d h id p len v -> snd (dt_pos d h) = Some p.
Proof.
  intros tr d h id p len v C R P. destruct (dt_spec tr C) as (d' & R' & Rt & DI). rewrite R in R'. injection R' as <-.
  destruct (run_spec tr C) as (t & Rt' & T & _). rewrite Rt in Rt'. injection Rt' as <-.
  pose proof (node_at_refs (t_shifts (dt_tree d)) h (t_root (dt_tree d))) as Na. unfold dt_pos. destruct P as [P|(c & P1 & P2 & P3 & P4)].
  - destruct (node_at h (t_root (dt_tree d))) as [n|].
    + pose proof (pos_spec _ _ _ _ _ _ T P) as Q. destruct (it_pos (dt_tree d) h). exact Q.
    + exfalso. apply Na. apply ents_in in P. destruct P as (x & i & X1 & X2 & X3). injection X3 as -> _ _ _ _. unfold refs. apply in_map. exact X1.
  - destruct (node_at h (t_root (dt_tree d))) as [n|].
    + exfalso. destruct DI as (D1 & _). revert D1 Na. generalize (refs (t_shifts (dt_tree d)) (t_root (dt_tree d))). intros rs D1 Na.
      apply (in_map d_ref) in P1. rewrite P2 in P1. revert D1 P1. generalize (map d_ref (dt_dead d)). intro l. induction l as [|x l IH]; [contradiction|]. cbn [app]. intros D1 [->|H]; inversion D1; subst; [|auto].
      match goal with H : ~ In _ _ |- _ => apply H end. apply in_or_app. right. exact Na.
    + pose proof (dead_at_in h (dt_dead d)) as Hc. destruct (dead_at h (dt_dead d)) as [c'|].
      * destruct Hc as [H1 H2]. assert (c = c') by (apply (nodup_dead d); [exact DI|exact P1|exact H1|congruence]). subst c'. cbn [snd].
        destruct DI as (_ & _ & D3). rewrite Forall_forall in D3. destruct (D3 c P1) as [K1 K2]. destruct T as (W & _).
        destruct (dead_apply _ _ (peeked d (d_left c)) (peeked d (d_right c)) W K1 K2 P3) as (M1 & _). rewrite M1. f_equal. exact P4.
      * exfalso. rewrite Forall_forall in Hc. exact (Hc c P1 P2).
Qed.

Theorem untouched_handle : forall (a b : list iop) id low high v, calm (a ++ OAdd id low high v :: b) -> untouched low (high - low) b ->
  exists da d, dt_run a = Some da /\ dt_run (a ++ OAdd id low high v :: b) = Some d /\
    snd (dt_pos d (snd (it_add (dt_tree da) id low high v))) = Some (follow low b).
Proof.
  intros a b id low high v C U. destruct (dt_place b a id low high v C U) as (da & d & A & B & P). exists da, d. split; [exact A|]. split; [exact B|]. exact (place_pos _ _ _ _ _ _ _ C B P).
Qed.
End P.

(** ** An interval inside another one *)
Lemma inside_follow : forall {V} (b : list (iop V)) p len q qlen, Forall sane b -> p <= q -> 0 <= qlen -> q + qlen <= p + len -> untouched p len b ->
  untouched q qlen b /\ follow q b = follow p b + (q - p).
Proof.
  intros V b. induction b as [|o b IH]; intros p len q qlen S P N Q U; [unfold follow; cbn; split; [exact Logic.I|lia]|]. inversion S as [|? ? S1 S2]; subst. cbn [untouched] in U |- *. destruct U as [U1 U2].
  unfold follow. cbn [fold_left]. fold (follow (moved q o) b). fold (follow (moved p o) b).
  assert (E : moved q o = moved p o + (q - p) /\ match o with OShift low high _ => high < q \/ q + qlen < low | _ => True end).
  { destruct o as [| |low high amt|]; cbn [moved]; try (split; [lia|exact Logic.I]). cbn in S1. destruct U1 as [U1|U1].
    - rewrite (proj2 (Z.leb_le low q)), (proj2 (Z.leb_le low p)) by lia. lia.
    - destruct (Z.leb_spec low q), (Z.leb_spec low p); lia. }
  destruct E as [E1 E2]. destruct (IH (moved p o) len (moved q o) qlen S2) as [A B]; [lia|lia|lia|exact U2|]. split; [split; assumption|]. rewrite B. lia.
Qed.

Lemma untouched_app : forall {V} (a b : list (iop V)) p len, untouched p len (a ++ b) <-> untouched p len a /\ untouched (follow p a) len b.
Proof.
  intros V a. induction a as [|o a IH]; intros b p len; [unfold follow; cbn; tauto|]. cbn [app untouched]. rewrite IH. unfold follow. cbn [fold_left]. tauto.
Qed.

Theorem together : forall {V} (a b c : list (iop V)) id low high v id' low' high' v',
  calm ((a ++ OAdd id' low' high' v' :: b) ++ OAdd id low high v :: c) ->
  untouched low' (high' - low') b -> low <= follow low' b -> follow low' b + (high' - low') <= high -> untouched low (high - low) c ->
  exists da db d, dt_run a = Some da /\ dt_run (a ++ OAdd id' low' high' v' :: b) = Some db /\
    dt_run ((a ++ OAdd id' low' high' v' :: b) ++ OAdd id low high v :: c) = Some d /\
    exists p, snd (dt_pos d (snd (it_add (dt_tree db) id low high v))) = Some p /\
      snd (dt_pos d (snd (it_add (dt_tree da) id' low' high' v'))) = Some (p + (follow low' b - low)).
Proof.
  intros V a b c id low high v id' low' high' v' C U L H Uc.
  destruct (untouched_handle _ c id low high v C Uc) as (db & d & A & B & D).
  assert (S : Forall sane c). { destruct C as [S _]. apply Forall_app in S. destruct S as [_ S]. inversion S; assumption. }
  assert (N : low' < high').
  { destruct C as [S' _]. apply Forall_app in S'. destruct S' as [S' _]. apply Forall_app in S'. destruct S' as [_ S']. inversion S' as [|? ? S1 _]; subst. cbn in S1. lia. }
  destruct (inside_follow c low (high - low) (follow low' b) (high' - low') S L ltac:(lia) ltac:(lia) Uc) as [U' F].
  pose proof B as B'. rewrite <- app_assoc in C, B'. cbn [app] in C, B'.
  destruct (untouched_handle a (b ++ OAdd id low high v :: c) id' low' high' v' C) as (da & d' & A' & Bd & D').
  { apply untouched_app. split; [exact U|]. cbn. split; [exact Logic.I|exact U']. }
  rewrite B' in Bd. injection Bd as <-. exists da, db, d. split; [exact A'|]. split; [exact A|]. split; [exact B|]. exists (follow low c). split; [exact D|].
  rewrite D'. f_equal. unfold follow at 1. rewrite fold_left_app. cbn [fold_left moved]. fold (follow low' b). fold (follow (follow low' b) c). rewrite F. reflexivity.
Qed.
