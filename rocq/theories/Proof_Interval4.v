(** Proofs about histories of the lazylog interval tree. *)
From Coq Require Import ZArith Lia Permutation.
From Verif Require Import Base Model_Interval Spec_Interval Proof_Interval Proof_Interval2 Proof_Interval3 Proof_Stage.
Local Open Scope Z_scope.

Section P.
Context {V : Type}.
Notation vw := (@vw V).
Notation itree := (itree V).
Notation iop := (iop V).

(** ** Entries *)
Definition vent : Type := nat * Z * Z * Z * V.     (* reference, id, low, high, value *)
Definition ents (vs : list vw) : list vent :=
  flat_map (fun x => map (fun i => (v_ref x, v_id x, iv_low i, iv_high i, iv_val i)) (v_ins x)) vs.
Definition tviews (t : itree) : list vw := views (t_shifts t) (t_root t).
Definition unref (e : vent) : stored V := let '(_, i, l, h, v) := e in (i, l, h, v).

Lemma ents_in : forall vs e, In e (ents vs) <->
  exists x i, In x vs /\ In i (v_ins x) /\ e = (v_ref x, v_id x, iv_low i, iv_high i, iv_val i).
Proof.
  intros vs e. unfold ents. rewrite in_flat_map. split.
  - intros (x & A & B). apply in_map_iff in B. destruct B as (i & C & D). exists x, i. auto.
  - intros (x & i & A & B & C). exists x. split; [exact A|]. apply in_map_iff. exists i. auto.
Qed.

Lemma values_ents : forall vs : list vw, values vs = map (fun e : vent => snd e) (ents vs).
Proof.
  unfold values, ents. induction vs as [|x vs IH]; [reflexivity|]. cbn [flat_map]. rewrite map_app, IH, map_map. reflexivity.
Qed.

Definition tinv (t : itree) : Prop :=
  wf_shs (t_shifts t) /\ t_ts t = List.length (t_shifts t) /\ inv (t_shifts t) (t_root t) /\
  NoDup (refs (t_shifts t) (t_root t)) /\ Forall (fun r => (r < t_next t)%nat) (refs (t_shifts t) (t_root t)).

Lemma tinv_empty : tinv it_empty.
Proof.
  unfold tinv. cbn. refine (conj _ (conj eq_refl (conj I (conj _ _)))); try constructor.
  intros j s H. destruct j; discriminate.
Qed.

(** ** Steps *)
Lemma refs_added : forall shs ref pos id v (t t' : tree V) h, added_view shs ref pos id v t t' h ->
  (refs shs t' = refs shs t) \/ (exists A B, refs shs t = A ++ B /\ refs shs t' = A ++ ref :: B).
Proof.
  unfold refs. intros shs ref pos id v t t' h [(A & x & B & E & K & _ & E')|(A & B & E & _ & E' & _)].
  - left. rewrite E, E', !map_app. reflexivity.
  - right. exists (map v_ref A), (map v_ref B). rewrite E, E', !map_app. auto.
Qed.

Lemma step_add : forall (t : itree) id low high v, tinv t -> low <= high ->
  let t' := fst (it_add t id low high v) in let h := snd (it_add t id low high v) in
  tinv t' /\ t_shifts t' = t_shifts t /\
  (Forall full (tviews t) -> Forall full (tviews t')) /\
  (exists A B, ents (tviews t) = A ++ B /\ ents (tviews t') = A ++ (h, id, low, high, v) :: B) /\
  ((exists x, In x (tviews t) /\ same_key low id x /\ List.length (tviews t') = List.length (tviews t)) \/
   (Forall (fun x => ~ same_key low id x) (tviews t) /\ List.length (tviews t') = S (List.length (tviews t)))).
Proof.
  intros t id low high v (W & K & I & N & L) Hl. unfold it_add. rewrite K.
  destruct (add (t_shifts t) (List.length (t_shifts t)) (t_next t) low id (Iv low high v) (t_root t)) as [r h] eqn:E.
  destruct (add_spec _ _ _ _ (Iv low high v) _ _ _ W I eq_refl Hl E) as (X & Y & Z). cbn [fst snd t_shifts]. unfold tviews, tinv. cbn [t_shifts t_root t_ts t_next].
  split; [|split; [reflexivity|split; [|split]]].
  - refine (conj W (conj eq_refl (conj X _))). destruct (refs_added _ _ _ _ _ _ _ _ Z) as [Q|(A & B & Q1 & Q2)].
    + rewrite Q. split; [exact N|]. eapply Forall_impl; [|exact L]. cbn. lia.
    + rewrite Q2. rewrite Q1 in N, L. split.
      * apply NoDup_Add with (a := t_next t) (l := A ++ B); [apply Add_app|]. split; [exact N|].
        intros C. rewrite Forall_forall in L. specialize (L _ C). cbn in L. lia.
      * apply Forall_app in L. destruct L as [L1 L2]. apply Forall_app; split; [eapply Forall_impl; [|exact L1]; cbn; lia|].
        constructor; [lia|]. eapply Forall_impl; [|exact L2]. cbn. lia.
  - intros F. destruct Z as [(A & x & B & E1 & K1 & K2 & E2)|(A & B & E1 & K2 & E2 & E3)]; rewrite E2; rewrite E1 in F;
      apply Forall_app in F; destruct F as [F1 F2].
    + inversion F2; subst. apply Forall_app; split; [assumption|]. constructor; [|assumption]. unfold full. cbn. destruct (v_ins x); discriminate.
    + apply Forall_app; split; [assumption|]. constructor; [|assumption]. unfold full. cbn. discriminate.
  - destruct Z as [(A & x & B & E1 & K1 & K2 & E2)|(A & B & E1 & K2 & E2 & E3)]; rewrite E1, E2; unfold ents; rewrite !flat_map_app; cbn [flat_map].
    + destruct x as [[[rx px] ix] lx]. destruct K1 as [K1a K1b]. cbn [v_ref v_pos v_id v_ins] in *. subst px ix h.
      rewrite map_app. cbn [map]. exists (flat_map (fun x => map (fun i => (v_ref x, v_id x, iv_low i, iv_high i, iv_val i)) (v_ins x)) A ++
        map (fun i => (rx, id, iv_low i, iv_high i, iv_val i)) lx),
        (flat_map (fun x => map (fun i => (v_ref x, v_id x, iv_low i, iv_high i, iv_val i)) (v_ins x)) B).
      rewrite <- !app_assoc. split; reflexivity.
    + cbn [v_ref v_id v_ins map app]. subst h.
      exists (flat_map (fun x => map (fun i => (v_ref x, v_id x, iv_low i, iv_high i, iv_val i)) (v_ins x)) A),
        (flat_map (fun x => map (fun i => (v_ref x, v_id x, iv_low i, iv_high i, iv_val i)) (v_ins x)) B). split; reflexivity.
  - destruct Z as [(A & x & B & E1 & K1 & K2 & E2)|(A & B & E1 & K2 & E2 & E3)].
    + left. exists x. rewrite E1, E2, !app_length. cbn. split; [apply in_or_app; right; left; reflexivity|]. auto.
    + right. split; [exact E3|]. rewrite E1, E2, !app_length. cbn. lia.
Qed.

Lemma step_find : forall (t : itree) id pos, tinv t ->
  let t' := fst (it_find t id pos) in
  tinv t' /\ t_shifts t' = t_shifts t /\ tviews t' = tviews t.
Proof.
  intros t id pos (W & K & I & N & L). unfold it_find.
  destruct (search (t_shifts t) pos id (t_root t)) as [r o] eqn:E.
  destruct (search_spec _ _ _ _ _ _ W I E) as (X & Y & Z & _). cbn. unfold tviews, tinv, refs in *. cbn.
  rewrite Z. tauto.
Qed.

Lemma step_pos : forall (t : itree) h, tinv t -> stg (t_shifts t) (t_root t) ->
  let t' := fst (it_pos t h) in
  tinv t' /\ t_shifts t' = t_shifts t /\ tviews t' = tviews t /\ stg (t_shifts t') (t_root t').
Proof.
  intros t h (W & K & I & N & L) S. unfold it_pos.
  destruct (touch (t_shifts t) h (t_root t)) as [r o] eqn:E.
  destruct (touch_stg _ _ _ _ _ W I S E) as (X & Y & Z). cbn. unfold tviews, tinv, refs in *. cbn.
  rewrite Z. tauto.
Qed.

Lemma stg_step_add : forall (t : itree) id low high v, tinv t -> stg (t_shifts t) (t_root t) ->
  stg (t_shifts (fst (it_add t id low high v))) (t_root (fst (it_add t id low high v))).
Proof.
  intros t id low high v (W & K & _) S. unfold it_add. rewrite K.
  destruct (add (t_shifts t) (List.length (t_shifts t)) (t_next t) low id (Iv low high v) (t_root t)) as [r h] eqn:E. cbn. exact (proj1 (stg_add _ _ _ _ _ _ _ _ W S E)).
Qed.
Lemma stg_step_find : forall (t : itree) id pos, tinv t -> stg (t_shifts t) (t_root t) -> stg (t_shifts (fst (it_find t id pos))) (t_root (fst (it_find t id pos))).
Proof.
  intros t id pos (W & _) S. unfold it_find. destruct (search (t_shifts t) pos id (t_root t)) as [r o] eqn:E. cbn. exact (stg_search _ _ _ _ _ _ W S E).
Qed.

Lemma dense_full : forall shs low (t : tree V), Forall full (views shs t) -> dense shs low t.
Proof.
  induction t as [|n l IHl r IHr]; intros H; [exact I|]. cbn [dense]. split; [auto|]. cbn [views] in H.
  apply Forall_app in H. destruct H as [H1 H2]. inversion H2; subst. auto.
Qed.

Definition vmoved (low amt : Z) (e : vent) : vent :=
  let '(r, i, l, h, v) := e in if low <=? l then (r, i, l + amt, h + amt, v) else (r, i, l, h, v).

Lemma step_shift : forall (t : itree) low high amt, tinv t -> low <= high ->
  (-1 <= amt \/ (t_shifts t = [] /\ low - high <= amt /\ Forall full (tviews t))) ->
  exists t', it_remove_and_shift t low high amt = Some t' /\ tinv t' /\
    (t_shifts t' = t_shifts t \/ exists s, t_shifts t' = t_shifts t ++ [s] /\ sh_amt s = amt) /\
    (stg (t_shifts t) (t_root t) -> stg (t_shifts t') (t_root t')) /\
    (forall e, In e (ents (tviews t')) -> exists e0, In e0 (ents (tviews t)) /\ e = vmoved low amt e0 /\
       (let '(_, _, l, h, _) := e0 in high < l \/ h < low)).
Proof.
  intros t low high amt (W & K & I & N & L) Hlh M. unfold it_remove_and_shift.
  destruct (remove_overlaps_spec (t_shifts t) low high (S (size (t_root t))) (t_root t) W I ltac:(lia))
    as (r & Er & Ir & Ur & Sr & Fr & Pr & Br & Dr). rewrite Er.
  assert (Nr : NoDup (refs (t_shifts t) r)) by (eapply subseq_NoDup; eassumption).
  assert (Lr : Forall (fun k => (k < t_next t)%nat) (refs (t_shifts t) r)) by (eapply incl_Forall; [|exact L]; apply subseq_incl; exact Br).
  assert (Mv : movable (t_shifts t) low amt (views (t_shifts t) r)).
  { destruct M as [M|(M1 & M2 & M3)].
    { left. rewrite Forall_forall in *. intros x Hx. unfold fits. destruct (Z.le_gt_cases 0 amt) as [Q|Q]; [left; exact Q|]. right. split; [lia|].
      destruct (Pr x Hx) as [[P|P] Po]; [|right; lia]. left. split; [exact P|]. split; [lia|]. rewrite Forall_forall in *. intros i Hi.
      specialize (Po i Hi). pose proof (inv_core _ _ Ir) as Cr. rewrite Forall_forall in Cr. specialize (Cr x Hx). unfold core in Cr. rewrite Forall_forall in Cr.
      specialize (Cr i Hi). unfold overlaps in Po. apply andb_false_iff in Po. rewrite !Z.leb_gt in Po. lia. }
    right. split; [exact M1|]. exists high. split; [exact Hlh|]. split; [exact M2|].
    destruct (Dr Hlh (dense_full _ _ _ M3)) as [_ H]. rewrite Forall_forall in *. intros x Hx.
    destruct (Pr x Hx) as [[P|P] _]; [|right; exact P]. left. split; [exact P|]. intros Q. pose proof (H x Hx Q). lia. }
  pose proof (inv_core _ _ Ir) as Cr.
  assert (Fe : forall e0, In e0 (ents (views (t_shifts t) r)) -> In e0 (ents (tviews t)) /\ (let '(_, _, l, h, _) := e0 in high < l \/ h < low)).
  { intros e0 He. apply ents_in in He. destruct He as (x & i & A & B & ->). rewrite Forall_forall in Fr, Pr.
    destruct (Fr x A) as (y & F1 & F2 & F3 & F4 & F5). split.
    - apply ents_in. exists y, i. split; [exact F1|]. split; [apply F4; exact B|]. rewrite F3, F5; [reflexivity|].
      intros Q. rewrite Q in B. exact B.
    - destruct (Pr x A) as [_ P]. rewrite Forall_forall in P. specialize (P i B). unfold overlaps in P.
      apply andb_false_iff in P. destruct P as [P|P]; apply Z.leb_gt in P; lia. }
  destruct (Z.eqb_spec amt 0) as [Z0|Z0].
  - exists (IT r (t_shifts t) (t_ts t) (t_next t)). split; [reflexivity|]. split; [unfold tinv; cbn; tauto|]. split; [left; reflexivity|]. split; [intro S; cbn; exact (stg_overlaps _ _ _ _ _ _ W S Er)|].
    unfold tviews at 1. cbn [t_shifts t_root]. intros e He. destruct (Fe e He) as [A B]. exists e. split; [exact A|]. split; [|exact B].
    destruct e as [[[[re ie] le] he] ve]. unfold vmoved. subst amt. rewrite !Z.add_0_r. destruct (low <=? le); reflexivity.
  - eexists. split; [reflexivity|]. rewrite K. split; [|split; [|split]].
    + unfold tinv. cbn [t_shifts t_root t_ts t_next]. split; [apply wf_snoc; exact W|]. split; [rewrite app_length; cbn; lia|].
      split; [apply shift_inv; assumption|]. unfold refs in *. rewrite shift_views by assumption. rewrite map_map.
      assert (Q : map (fun x => v_ref (mvw low amt x)) (views (t_shifts t) r) = map v_ref (views (t_shifts t) r)).
      { apply map_ext. intros x. unfold mvw. destruct (low <=? v_pos x); reflexivity. }
      rewrite Q. split; assumption.
    + right. eexists. split; reflexivity.
    + intro S. cbn [t_shifts t_root]. apply stg_shift; try assumption. exact (stg_overlaps _ _ _ _ _ _ W S Er).
    + unfold tviews at 1. cbn [t_shifts t_root]. rewrite shift_views by assumption. intros e He.
      apply ents_in in He. destruct He as (x & i & A & B & ->). apply in_map_iff in A. destruct A as (x0 & <- & A).
      rewrite Forall_forall in Cr. pose proof (Cr x0 A) as C0. unfold core in C0. rewrite Forall_forall in C0.
      unfold mvw in *. destruct (Z.leb_spec low (v_pos x0)) as [Q|Q].
      * cbn [v_ins v_ref v_id] in *. unfold ins_shift in B. apply in_map_iff in B. destruct B as (i0 & <- & B). cbn [iv_low iv_high iv_val].
        destruct (Fe (v_ref x0, v_id x0, iv_low i0, iv_high i0, iv_val i0)) as [F1 F2]; [apply ents_in; exists x0, i0; auto|].
        eexists. split; [exact F1|]. split; [|exact F2]. unfold vmoved. destruct (C0 i0 B) as [C1 _]. rewrite C1.
        destruct (Z.leb_spec low (v_pos x0)); [reflexivity|lia].
      * destruct (Fe (v_ref x0, v_id x0, iv_low i, iv_high i, iv_val i)) as [F1 F2]; [apply ents_in; exists x0, i; auto|].
        eexists. split; [exact F1|]. split; [|exact F2]. unfold vmoved. destruct (C0 i B) as [C1 _]. rewrite C1.
        destruct (Z.leb_spec low (v_pos x0)); [lia|reflexivity].
Qed.

(** ** Histories *)
(** the interval at p of the given length is not met, ends included, by the removals of the history *)
Fixpoint alive (p len : Z) (b : list iop) : Prop :=
  match b with
  | [] => True
  | o :: b => match o with OShift low high _ => high < p \/ p + len < low | _ => True end /\ alive (moved p o) len b
  end.
Lemma alive_snoc : forall b p len o, alive p len (b ++ [o]) <->
  alive p len b /\ match o with OShift low high _ => high < follow p b \/ follow p b + len < low | _ => True end.
Proof.
  induction b as [|x b IH]; intros p len o; cbn; [tauto|]. rewrite IH. unfold follow. cbn. tauto.
Qed.
Lemma follow_snoc : forall b p (o : iop), follow p (b ++ [o]) = moved (follow p b) o.
Proof. intros. unfold follow. rewrite fold_left_app. reflexivity. Qed.

Definition rel (tr : list iop) (e : vent) : Prop :=
  let '(r, id, l, h, v) := e in
  exists a low high b ta, tr = a ++ OAdd id low high v :: b /\ it_run a = Some ta /\ snd (it_add ta id low high v) = r /\
    l = follow low b /\ h = l + (high - low) /\ alive low (high - low) b.

Lemma it_run_snoc : forall tr (o : iop), it_run (tr ++ [o]) = it_step (it_run tr) o.
Proof. intros. unfold it_run, it_run_from. rewrite fold_left_app. reflexivity. Qed.

Lemma rel_keep : forall tr o e, match o with OShift _ _ _ => False | _ => True end -> rel tr e -> rel (tr ++ [o]) e.
Proof.
  intros tr o [[[[r id] l] h] v] Ho (a & low & high & b & ta & E & R & H & L1 & L2 & A).
  exists a, low, high, (b ++ [o]), ta. split; [rewrite E, <- app_assoc; reflexivity|]. split; [exact R|]. split; [exact H|].
  rewrite follow_snoc, alive_snoc. destruct o; cbn [moved]; try contradiction; auto.
Qed.

Lemma calm_prefix : forall tr (o : iop), calm (tr ++ [o]) -> calm tr.
Proof.
  intros tr o [S H]. apply Forall_app in S. split; [tauto|]. destruct H as [H|(a & low & high & amt & b & E & Ha & Hb)].
  - left. apply Forall_app in H. tauto.
  - destruct (exists_last (l := OShift low high amt :: b)) as (b' & o' & Eb); [discriminate|]. rewrite Eb, app_assoc in E.
    apply app_inj_tail in E. destruct E as [E ->]. destruct b' as [|x b'].
    + rewrite app_nil_r in E. subst tr. left. eapply Forall_impl; [|exact Ha]. intros [] K; cbn in *; tauto.
    + cbn in Eb. injection Eb as <- Eb. rewrite Eb in Hb. apply Forall_app in Hb. right. exists a, low, high, amt, b'. tauto.
Qed.
Lemma calm_last : forall tr (o : iop), calm (tr ++ [o]) ->
  match o with
  | OShift _ _ amt => -1 <= amt \/ Forall (fun o => ~ is_shift o) tr
  | _ => True
  end.
Proof.
  intros tr o [_ H]. destruct H as [H|(a & low & high & amt & b & E & Ha & Hb)].
  - apply Forall_app in H. destruct H as [H1 H2]. inversion H2; subst. destruct o; try exact Logic.I. left. assumption.
  - destruct (exists_last (l := OShift low high amt :: b)) as (b' & o' & Eb); [discriminate|]. rewrite Eb, app_assoc in E.
    apply app_inj_tail in E. destruct E as [E <-]. destruct b' as [|x b'].
    + rewrite app_nil_r in E. subst tr. cbn in Eb. injection Eb as <- _. right. exact Ha.
    + cbn in Eb. injection Eb as <- Eb. rewrite Eb in Hb. apply Forall_app in Hb. destruct Hb as [_ Hb].
      inversion Hb; subst. destruct o; try exact Logic.I. left. assumption.
Qed.

Lemma run_spec : forall tr : list iop, calm tr -> exists t, it_run tr = Some t /\ tinv t /\
  stg (t_shifts t) (t_root t) /\
  (Forall (fun o => ~ is_shift o) tr -> t_shifts t = [] /\ Forall full (tviews t)) /\
  (forall e, In e (ents (tviews t)) -> rel tr e).
Proof.
  intros tr. induction tr as [|o tr IH] using rev_ind; intros C.
  - exists it_empty. split; [reflexivity|]. split; [apply tinv_empty|]. split; [exact Logic.I|]. split; [split; [reflexivity|constructor]|].
    intros e H. destruct H.
  - destruct (IH (calm_prefix tr o C)) as (t & R & T & S0 & P & E). pose proof (calm_last tr o C) as Q.
    destruct C as [S _]. apply Forall_app in S. destruct S as [_ S]. inversion S as [|? ? S1 _]; subst. clear S.
    assert (K : forall t', tinv t' -> t_shifts t' = t_shifts t -> tviews t' = tviews t -> stg (t_shifts t') (t_root t') -> ~ is_shift o ->
      tinv t' /\ stg (t_shifts t') (t_root t') /\
      (Forall (fun o => ~ is_shift o) (tr ++ [o]) -> t_shifts t' = [] /\ Forall full (tviews t')) /\
      (forall e, In e (ents (tviews t')) -> rel (tr ++ [o]) e)).
    { intros t' T' E1 E2 S' N. split; [exact T'|]. split; [exact S'|]. rewrite E1, E2.
      split; [intros F; apply Forall_app in F; tauto|]. intros e He. apply rel_keep; [destruct o; cbn in *; tauto|]. apply E. exact He. }
    rewrite it_run_snoc, R. destruct o as [id low high v|id pos|low high amt|h]; cbn [it_step].
    + eexists. split; [reflexivity|]. cbn in S1.
      destruct (step_add t id low high v T ltac:(lia)) as (X1 & X2 & X3 & (A & B & X4 & X5) & _). split; [exact X1|].
      split; [apply stg_step_add; assumption|]. rewrite X2. split; [intros F; apply Forall_app in F; destruct (P (proj1 F)); auto|].
      intros e He. rewrite X5 in He. rewrite X4 in E. apply in_app_iff in He. destruct He as [He|[<-|He]].
      * apply rel_keep; [exact Logic.I|]. apply E. apply in_or_app. tauto.
      * exists tr, low, high, [], t. cbn. split; [reflexivity|]. split; [exact R|]. split; [reflexivity|]. split; [reflexivity|]. split; [lia|exact Logic.I].
      * apply rel_keep; [exact Logic.I|]. apply E. apply in_or_app. tauto.
    + eexists. split; [reflexivity|]. destruct (step_find t id pos T) as (X1 & X2 & X3). apply K; try assumption; [apply stg_step_find; assumption|intros []].
    + cbn in S1. destruct (step_shift t low high amt T ltac:(lia)) as (t' & X1 & X2 & X3 & X0 & X4).
      { destruct Q as [Q|Q]; [left; exact Q|right]. destruct (P Q). split; [assumption|]. split; [lia|assumption]. }
      exists t'. split; [exact X1|]. split; [exact X2|]. split; [|split].
      * exact (X0 S0).
      * intros F. apply Forall_app in F. destruct F as [_ F]. inversion F; subst. exfalso. cbn in *. tauto.
      * intros e He. destruct (X4 e He) as ([[[[r i] l] hh] vv] & Y1 & Y2 & Y3). specialize (E _ Y1).
        destruct E as (a & lo & hi & b & ta & E1 & E2 & E3 & E4 & E5 & E6). unfold vmoved in Y2.
        assert (Ee : e = (r, i, moved l (OShift (V:=V) low high amt), moved l (OShift (V:=V) low high amt) + (hi - lo), vv)).
        { rewrite Y2. cbn [moved]. rewrite E5. destruct (low <=? l); [|reflexivity]. replace (l + amt + (hi - lo)) with (l + (hi - lo) + amt) by lia. reflexivity. }
        rewrite Ee. exists a, lo, hi, (b ++ [OShift low high amt]), ta. split; [rewrite E1, <- app_assoc; reflexivity|].
        split; [exact E2|]. split; [exact E3|]. rewrite follow_snoc, alive_snoc, <- E4. split; [reflexivity|]. split; [reflexivity|].
        split; [exact E6|]. lia.
    + eexists. split; [reflexivity|]. destruct (step_pos t h T S0) as (X1 & X2 & X3 & X4). apply K; try assumption. intros [].
Qed.

(** ** The reference map *)
Lemma ref_alive : forall b m id p len (v : V), In (id, p, p + len, v) m -> alive p len b ->
  In (id, follow p b, follow p b + len, v) (fold_left ref_step b m).
Proof.
  induction b as [|o b IH]; intros m id p len v H A; [exact H|]. cbn [fold_left]. destruct A as [A1 A2].
  unfold follow. cbn [fold_left]. apply IH; [|exact A2]. destruct o; cbn [ref_step moved]; try exact H.
  - apply in_or_app. tauto.
  - apply in_map_iff. exists (id, p, p + len, v). split.
    + destruct (low <=? p); [|reflexivity]. replace (p + amt + len) with (p + len + amt) by lia. reflexivity.
    + apply filter_In. split; [exact H|]. unfold meets_b. apply negb_true_iff, andb_false_iff. rewrite !Z.ltb_ge. lia.
Qed.
Lemma rel_ref : forall tr e, rel tr e -> In (unref e) (ref_run tr).
Proof.
  intros tr [[[[r id] l] h] v] (a & low & high & b & ta & E & _ & _ & L1 & L2 & A). cbn. subst tr l h.
  unfold ref_run. rewrite fold_left_app. cbn [fold_left ref_step]. apply ref_alive; [|exact A].
  apply in_or_app. right. left. replace (low + (high - low)) with high by lia. reflexivity.
Qed.

(** ** Lookups *)
Lemma longest_spec : forall ins (best : ival V), let r := longest best ins in
  In r (best :: ins) /\ Forall (fun i => iv_length i <= iv_length r) (best :: ins).
Proof.
  induction ins as [|i ins IH]; intros best; cbn [longest].
  - split; [left; reflexivity|]. constructor; [lia|constructor].
  - destruct (IH (if iv_length best <? iv_length i then i else best)) as [A B]. destruct (Z.ltb_spec (iv_length best) (iv_length i)).
    + split; [right; exact A|]. constructor; [|exact B]. inversion B; subst. lia.
    + split; [destruct A as [A|A]; [left; exact A|right; right; exact A]|]. inversion B; subst. constructor; [assumption|]. constructor; [lia|assumption].
Qed.

Lemma views_key : forall shs (t : tree V) x y, inv shs t -> In x (views shs t) -> In y (views shs t) ->
  v_pos x = v_pos y -> v_id x = v_id y -> x = y.
Proof.
  induction t as [|n l IHl r IHr]; intros x y H Hx Hy E1 E2; [destruct Hx|]. cbn [inv views] in *.
  destruct H as (_ & _ & _ & _ & _ & _ & F & G & I & J). rewrite Forall_forall in F, G.
  apply in_app_iff in Hx, Hy. cbn [In] in Hx, Hy. unfold klt in *.
  destruct Hx as [Hx|[Hx|Hx]]; destruct Hy as [Hy|[Hy|Hy]]; subst;
    try (eapply IHl; eassumption); try (eapply IHr; eassumption); try reflexivity;
    repeat match goal with
    | Q : In _ (views shs l) |- _ => apply F in Q
    | Q : In _ (views shs r) |- _ => apply G in Q
    end; lia.
Qed.

Lemma find_spec : forall (t : itree) id pos, tinv t ->
  match snd (it_find t id pos) with
  | Some v => exists r h, In (r, id, pos, h, v) (ents (tviews t)) /\
      forall r' h' v', In (r', id, pos, h', v') (ents (tviews t)) -> h' <= h
  | None => forall r' h' v', ~ In (r', id, pos, h', v') (ents (tviews t))
  end.
Proof.
  intros t id pos (W & K & I & N & L). unfold it_find.
  destruct (search (t_shifts t) pos id (t_root t)) as [r o] eqn:E.
  destruct (search_spec _ _ _ _ _ _ W I E) as (_ & _ & _ & S). cbn [snd].
  pose proof (inv_core _ _ I) as Cr. rewrite Forall_forall in Cr.
  assert (Q : forall r' h' v', In (r', id, pos, h', v') (ents (tviews t)) -> exists x i, In x (tviews t) /\ In i (v_ins x) /\
      same_key pos id x /\ iv_low i = pos /\ iv_high i = h').
  { intros r' h' v' H. apply ents_in in H. destruct H as (x & i & A & B & C). injection C as _ C1 C2 C3 C4. exists x, i.
    pose proof (Cr x A) as D. unfold core in D. rewrite Forall_forall in D. destruct (D i B). unfold same_key. subst. auto. }
  destruct o as [n|].
  - destruct S as [S1 S2].
    assert (Qn : forall r' h' v', In (r', id, pos, h', v') (ents (tviews t)) -> exists i, In i (n_ins n) /\ iv_low i = pos /\ iv_high i = h').
    { intros r' h' v' H. destruct (Q r' h' v' H) as (x & i & A & B & [C1 C2] & D). destruct S2 as [S2 S3].
      assert (x = view n) by (eapply views_key; [exact I|exact A|exact S1|congruence|congruence]). subst x. exists i. auto. }
    destruct (n_ins n) as [|i0 ins] eqn:En.
    + intros r' h' v' H. destruct (Qn _ _ _ H) as (i & A & _). destruct A.
    + destruct (longest_spec ins i0) as [A B]. set (i := longest i0 ins) in *. exists (n_ref n), (iv_high i).
      pose proof (Cr _ S1) as D. unfold core in D. cbn [v_ins v_pos view] in D. rewrite En in D. rewrite Forall_forall in D.
      destruct S2 as [S2 S3]. cbn in S2, S3. split.
      * apply ents_in. exists (view n), i. split; [exact S1|]. split; [cbn; rewrite En; exact A|]. cbn.
        destruct (D i A). congruence.
      * intros r' h' v' H. destruct (Qn _ _ _ H) as (j & C1 & C2 & C3). rewrite Forall_forall in B. specialize (B j C1).
        unfold iv_length in B. destruct (D i A). lia.
  - intros r' h' v' H. destruct (Q r' h' v' H) as (x & i & A & B & C & _). rewrite Forall_forall in S. exact (S x A C).
Qed.

(** ** Handles *)
Lemma pos_spec : forall (t : itree) r id l h v, tinv t -> In (r, id, l, h, v) (ents (tviews t)) -> snd (it_pos t r) = Some l.
Proof.
  intros t r id l h v (W & K & I & N & L) H. unfold it_pos. destruct (touch (t_shifts t) r (t_root t)) as [t' o] eqn:E. cbn [snd].
  apply touch_read in E. apply ents_in in H. destruct H as (x & i & A & B & C). injection C as -> -> -> -> ->.
  pose proof (inv_core _ _ I) as Cr. rewrite Forall_forall in Cr. pose proof (Cr x A) as D. unfold core in D. rewrite Forall_forall in D.
  destruct (D i B) as [D1 _]. destruct o as [p|].
  - destruct E as (y & E1 & E2 & E3). enough (x = y) by congruence.
    unfold refs in N. fold (tviews t) in *. revert A E1 E2 N. generalize (tviews t). induction l; cbn; intros A E1 E2 N; [contradiction|].
    inversion N; subst. destruct A as [A|A]; destruct E1 as [E1|E1]; subst; auto.
    + exfalso. apply H1. apply in_map_iff. exists y. split; assumption.
    + exfalso. apply H1. apply in_map_iff. exists x. split; [symmetry; assumption|assumption].
  - rewrite Forall_forall in E. exfalso. exact (E x A eq_refl).
Qed.

(** ** Histories without RemoveAndShift *)
Lemma run_plain : forall tr : list iop, calm tr -> Forall (fun o => ~ is_shift o) tr ->
  forall t, it_run tr = Some t -> Permutation (map unref (ents (tviews t))) (ref_run tr).
Proof.
  intros tr. induction tr as [|o tr IH] using rev_ind; intros C N t R.
  - injection R as <-. constructor.
  - pose proof (calm_prefix tr o C) as C0. destruct (run_spec tr C0) as (t0 & R0 & T0 & S0 & P & _).
    apply Forall_app in N. destruct N as [N1 N2]. inversion N2 as [|? ? N3 _]; subst. specialize (IH C0 N1 t0 R0).
    pose proof (calm_last tr o C) as Q. destruct C as [S _]. apply Forall_app in S. destruct S as [_ S]. inversion S as [|? ? S1 _]; subst.
    rewrite it_run_snoc, R0 in R. unfold ref_run. rewrite fold_left_app. fold (ref_run tr). cbn [fold_left].
    destruct o as [id low high v|id pos|low high amt|h]; cbn [it_step ref_step] in *; injection R as <- || (exfalso; apply N3; exact I).
    + cbn in S1. destruct (step_add t0 id low high v T0 ltac:(lia)) as (_ & _ & _ & (A & B & X4 & X5) & _). rewrite X5. rewrite X4 in IH.
      rewrite !map_app in *. cbn [map unref]. rewrite <- Permutation_middle. rewrite IH. apply Permutation_cons_append.
    + destruct (step_find t0 id pos T0) as (_ & _ & X). rewrite X. exact IH.
    + destruct (step_pos t0 h T0 S0) as (_ & _ & X & _). rewrite X. exact IH.
Qed.

Lemma full_count : forall vs : list vw, Forall full vs -> (List.length vs <= List.length (ents vs))%nat.
Proof.
  induction 1 as [|x vs H F IH]; [cbn; lia|].
  assert (E : List.length (ents (x :: vs)) = (List.length (v_ins x) + List.length (ents vs))%nat).
  { unfold ents at 1. cbn [flat_map]. rewrite app_length, map_length. reflexivity. }
  rewrite E. unfold full in H. destruct (v_ins x); [congruence|]. cbn [List.length]. lia.
Qed.
Definition ekey (s : stored V) : Z * Z := let '(i, l, _, _) := s in (i, l).
Lemma key_count : forall vs : list vw, Forall full vs -> Forall core vs -> NoDup (map ekey (map unref (ents vs))) ->
  List.length vs = List.length (ents vs).
Proof.
  induction vs as [|x vs IH]; intros F C N; [reflexivity|]. inversion F as [|? ? H1 H2]; subst. inversion C as [|? ? H3 H4]; subst.
  assert (E : List.length (ents (x :: vs)) = (List.length (v_ins x) + List.length (ents vs))%nat).
  { unfold ents at 1. cbn [flat_map]. rewrite app_length, map_length. reflexivity. }
  assert (N1 : map ekey (map unref (ents (x :: vs))) = map (fun i => (v_id x, iv_low i)) (v_ins x) ++ map ekey (map unref (ents vs))).
  { unfold ents at 1. cbn [flat_map]. rewrite !map_app, !map_map. reflexivity. }
  rewrite N1 in N. rewrite E. cbn [List.length]. rewrite IH; try assumption.
  - unfold full, core in *. destruct (v_ins x) as [|i [|j l]]; [congruence|reflexivity|]. exfalso.
    inversion H3 as [|? ? Q1 Q2]; subst. inversion Q2 as [|? ? Q3 _]; subst. cbn in N. inversion N as [|? ? Q4 _]; subst.
    apply Q4. left. f_equal. lia.
  - clear -N. revert N. generalize (map (fun i => (v_id x, iv_low i)) (v_ins x)).
    induction l; cbn; intros N; [exact N|]. inversion N; subst. auto.
Qed.

End P.
