(** The proofs behind Props_Interval. *)
From Coq Require Import ZArith Lia Permutation.
From Verif Require Import Base Model_Interval Spec_Interval Proof_Interval Proof_Interval2 Proof_Interval3 Proof_Interval4.
Local Open Scope Z_scope.

Section P.
Context {V : Type}.
Notation iop := (iop V).

Lemma ref_vals : forall tr : list iop, subseq (map stored_val (ref_run tr)) (added tr).
Proof.
  intros tr. induction tr as [|o tr IH] using rev_ind; [constructor|].
  unfold added, ref_run in *. rewrite flat_map_app, fold_left_app. cbn [fold_left flat_map].
  destruct o; cbn [ref_step]; rewrite ?app_nil_r; try exact IH.
  - rewrite map_app. apply subseq_app; [exact IH|apply subseq_refl].
  - eapply subseq_trans; [|exact IH]. rewrite map_map. clear. induction (fold_left ref_step tr []) as [|[[[i l] h] v] m IH]; [constructor|].
    cbn [filter]. destruct (negb _); cbn [map]; [|apply sub_skip; exact IH].
    destruct (low <=? l); cbn; apply sub_keep; exact IH.
Qed.

Lemma NoDup_map_inj : forall {A B} (f : A -> B) l x y, NoDup (map f l) -> In x l -> In y l -> f x = f y -> x = y.
Proof.
  induction l as [|a l IH]; cbn; intros x y N Hx Hy E; [contradiction|]. inversion N; subst.
  destruct Hx as [->|Hx]; destruct Hy as [->|Hy]; auto.
  - exfalso. apply H1. rewrite E. apply in_map. exact Hy.
  - exfalso. apply H1. rewrite <- E. apply in_map. exact Hx.
Qed.

Lemma value_entry : forall (t : itree V) v, In v (it_values t) -> exists e, In e (ents (tviews t)) /\ snd e = v.
Proof.
  intros t v H. unfold it_values in H. rewrite (allvals_views (t_shifts t)), values_ents in H.
  apply in_map_iff in H. destruct H as (e & A & B). exists e. auto.
Qed.
Lemma entry_value : forall (t : itree V) e, In e (ents (tviews t)) -> In (snd e) (it_values t).
Proof.
  intros t e H. unfold it_values. rewrite (allvals_views (t_shifts t)), values_ents. apply in_map_iff. exists e. auto.
Qed.

Lemma p_total : forall tr : list iop, calm tr -> it_run tr <> None.
Proof. intros tr C. destruct (run_spec tr C) as (t & R & _). congruence. Qed.

Lemma p_find : forall (tr : list iop) t id pos, calm tr -> NoDup (added tr) -> it_run tr = Some t ->
  match snd (it_find t id pos) with
  | Some v => exists h, In (id, pos, h, v) (ref_run tr) /\ In v (it_values t) /\
      forall h' v', In (id, pos, h', v') (ref_run tr) -> In v' (it_values t) -> h' <= h
  | None => forall h v, In (id, pos, h, v) (ref_run tr) -> ~ In v (it_values t)
  end.
Proof.
  intros tr t id pos C N R. destruct (run_spec tr C) as (t0 & R0 & T & _ & _ & E). rewrite R in R0. injection R0 as <-.
  assert (N2 : NoDup (map stored_val (ref_run tr))) by (eapply subseq_NoDup; [apply ref_vals|exact N]).
  assert (K : forall h v, In (id, pos, h, v) (ref_run tr) -> In v (it_values t) -> exists r, In (r, id, pos, h, v) (ents (tviews t))).
  { intros h v H1 H2. destruct (value_entry t v H2) as (e & A & B). pose proof (rel_ref tr e (E e A)) as Q.
    destruct e as [[[[r i] l] hh] vv]. cbn in B, Q. subst vv.
    pose proof (NoDup_map_inj stored_val (ref_run tr) _ _ N2 H1 Q eq_refl) as X. injection X as <- <- <-. exists r. exact A. }
  pose proof (find_spec t id pos T) as F. destruct (snd (it_find t id pos)) as [v|].
  - destruct F as (r & h & A & B). exists h. split; [exact (rel_ref tr _ (E _ A))|]. split; [exact (entry_value t _ A)|].
    intros h' v' H1 H2. destruct (K h' v' H1 H2) as (r' & H3). exact (B _ _ _ H3).
  - intros h v H1 H2. destruct (K h v H1 H2) as (r' & H3). exact (F _ _ _ H3).
Qed.

Lemma p_find_plain : forall (tr : list iop) t id pos, calm tr -> Forall (fun o => ~ is_shift o) tr -> it_run tr = Some t ->
  match snd (it_find t id pos) with
  | Some v => exists h, In (id, pos, h, v) (ref_run tr) /\ forall h' v', In (id, pos, h', v') (ref_run tr) -> h' <= h
  | None => forall h v, ~ In (id, pos, h, v) (ref_run tr)
  end.
Proof.
  intros tr t id pos C N R. destruct (run_spec tr C) as (t0 & R0 & T & _ & _ & E). rewrite R in R0. injection R0 as <-.
  pose proof (run_plain tr C N t R) as P.
  assert (K : forall h v, In (id, pos, h, v) (ref_run tr) -> exists r, In (r, id, pos, h, v) (ents (tviews t))).
  { intros h v H. apply (Permutation_in _ (Permutation_sym P)) in H. apply in_map_iff in H. destruct H as ([[[[r i] l] hh] vv] & A & B).
    cbn in A. injection A as -> -> -> ->. exists r. exact B. }
  pose proof (find_spec t id pos T) as F. destruct (snd (it_find t id pos)) as [v|].
  - destruct F as (r & h & A & B). exists h. split; [exact (rel_ref tr _ (E _ A))|]. intros h' v' H. destruct (K h' v' H) as (r' & H3). exact (B _ _ _ H3).
  - intros h v H. destruct (K h v H) as (r' & H3). exact (F _ _ _ H3).
Qed.

Lemma meets_b_spec : forall a b c d, meets_b a b c d = true <-> meets a b c d.
Proof. intros. unfold meets_b, meets. rewrite andb_true_iff, !Z.ltb_lt. tauto. Qed.

Lemma p_stale : forall (tr : list iop) low high amt t v, calm (tr ++ [OShift low high amt]) ->
  it_run (tr ++ [OShift low high amt]) = Some t -> In v (it_values t) ->
  exists id l h, In (id, l, h, v) (ref_run tr) /\ ~ meets l h low high.
Proof.
  intros tr low high amt t v C R H. destruct (run_spec _ C) as (t0 & R0 & T & _ & _ & E). rewrite R in R0. injection R0 as <-.
  destruct (value_entry t v H) as (e & A & B). pose proof (rel_ref _ e (E e A)) as Q. destruct e as [[[[r i] l] hh] vv]. cbn in B, Q. subst vv.
  unfold ref_run in Q. rewrite fold_left_app in Q. cbn [fold_left ref_step] in Q. fold (ref_run tr) in Q. apply in_map_iff in Q.
  destruct Q as ([[[i0 l0] h0] v0] & X & Y). apply filter_In in Y. destruct Y as [Y1 Y2]. exists i0, l0, h0.
  assert (v0 = v) by (destruct (low <=? l0); congruence). subst v0. split; [exact Y1|]. rewrite <- meets_b_spec. intros Z. rewrite Z in Y2. discriminate.
Qed.
Lemma p_stale_find : forall (tr : list iop) low high amt t id pos v, calm (tr ++ [OShift low high amt]) ->
  it_run (tr ++ [OShift low high amt]) = Some t -> snd (it_find t id pos) = Some v ->
  exists l h, In (id, l, h, v) (ref_run tr) /\ ~ meets l h low high /\ pos = (if low <=? l then l + amt else l).
Proof.
  intros tr low high amt t id pos v C R H. destruct (run_spec _ C) as (t0 & R0 & T & _ & _ & E). rewrite R in R0. injection R0 as <-.
  pose proof (find_spec t id pos T) as F. rewrite H in F. destruct F as (r & h & A & _). pose proof (rel_ref _ _ (E _ A)) as Q. cbn in Q.
  unfold ref_run in Q. rewrite fold_left_app in Q. cbn [fold_left ref_step] in Q. fold (ref_run tr) in Q. apply in_map_iff in Q.
  destruct Q as ([[[i0 l0] h0] v0] & X & Y). apply filter_In in Y. destruct Y as [Y1 Y2]. exists l0, h0.
  assert (Z : v0 = v /\ i0 = id /\ pos = (if low <=? l0 then l0 + amt else l0)) by (destruct (low <=? l0); injection X as -> -> _ ->; auto).
  destruct Z as (-> & -> & Z). split; [exact Y1|]. split; [|exact Z]. rewrite <- meets_b_spec. intros Z2. rewrite Z2 in Y2. discriminate.
Qed.

Lemma p_untouched : forall (tr : list iop) low high amt t t', calm (tr ++ [OShift low high amt]) -> Forall (fun o => ~ is_shift o) tr ->
  Forall (fun '(_, l, h, _) => high < l \/ h < low) (ref_run tr) ->
  it_run tr = Some t -> it_run (tr ++ [OShift low high amt]) = Some t' -> it_values t' = it_values t.
Proof.
  intros tr low high amt t t' C N F R R'. pose proof (calm_prefix _ _ C) as C0.
  destruct (run_spec _ C0) as (t0 & R0 & T & _ & P & E). rewrite R in R0. injection R0 as <-. destruct (P N) as [P1 P2].
  rewrite it_run_snoc, R in R'. cbn [it_step] in R'. unfold it_remove_and_shift in R'.
  destruct T as (W & K & I & _). destruct (remove_overlaps_none (t_shifts t) low high (S (size (t_root t))) (t_root t) W I ltac:(lia) P2) as (r & Q1 & Q2 & Q3).
  { apply Forall_forall. intros x Hx. apply Forall_forall. intros i Hi. rewrite Forall_forall in F.
    assert (H : In (v_ref x, v_id x, iv_low i, iv_high i, iv_val i) (ents (tviews t))) by (apply ents_in; exists x, i; auto).
    specialize (F _ (rel_ref _ _ (E _ H))). cbn in F. unfold overlaps. apply andb_false_iff. rewrite !Z.leb_gt. lia. }
  rewrite Q1 in R'. assert (X : t_root t' = r) by (destruct (amt =? 0); injection R' as <-; reflexivity).
  unfold it_values. rewrite X, (allvals_views (t_shifts t) r), Q2, <- allvals_views. reflexivity.
Qed.

Lemma p_handle : forall (a b : list iop) id low high v ta t, calm (a ++ OAdd id low high v :: b) ->
  ~ In v (added a) -> ~ In v (added b) -> it_run a = Some ta -> it_run (a ++ OAdd id low high v :: b) = Some t ->
  In v (it_values t) -> snd (it_pos t (snd (it_add ta id low high v))) = Some (follow low b).
Proof.
  intros a b id low high v ta t C Na Nb Ra R H. destruct (run_spec _ C) as (t0 & R0 & T & _ & _ & E). rewrite R in R0. injection R0 as <-.
  destruct (value_entry t v H) as (e & A & B). pose proof (E e A) as Q. destruct e as [[[[r i] l] hh] vv]. cbn in B. subst vv.
  destruct Q as (a' & low' & high' & b' & ta' & X1 & X2 & X3 & X4 & X5 & X6).
  assert (Y : a = a' /\ OAdd id low high v = OAdd i low' high' v /\ b = b').
  { clear -X1 Na Nb. revert a' X1. induction a as [|o a IH]; intros [|o' a'] X1; cbn in *.
    - injection X1 as <- <- <- <-. auto.
    - injection X1 as <- X1. exfalso. apply Nb. rewrite X1. unfold added. rewrite flat_map_app. apply in_or_app. right. left. reflexivity.
    - injection X1 as -> X1. exfalso. apply Na. left. reflexivity.
    - injection X1 as <- X1. destruct (IH) with (a' := a') as (-> & Y & Z); auto. intros K. apply Na. unfold added in *. cbn. apply in_or_app. right. exact K. }
  destruct Y as (<- & Y & <-). injection Y as <- <- <-. rewrite Ra in X2. injection X2 as <-. rewrite X3. subst l.
  eapply pos_spec; eassumption.
Qed.

Lemma p_size : forall (tr : list iop) t, calm tr -> Forall (fun o => ~ is_shift o) tr -> it_run tr = Some t ->
  (it_size t <= List.length (ref_run tr))%nat /\ (NoDup (map stored_key (ref_run tr)) -> it_size t = List.length (ref_run tr)).
Proof.
  intros tr t C N R. destruct (run_spec tr C) as (t0 & R0 & T & _ & P & E). rewrite R in R0. injection R0 as <-.
  pose proof (run_plain tr C N t R) as Q. destruct (P N) as [_ F]. unfold it_size. rewrite <- (views_length (t_shifts t)). fold (tviews t).
  pose proof (Permutation_length Q) as L. rewrite map_length in L. rewrite <- L. split; [apply full_count; exact F|].
  intros D. apply key_count; [exact F| |].
  - destruct T as (_ & _ & I & _). exact (inv_core _ _ I).
  - eapply Permutation_NoDup; [|exact D]. apply Permutation_sym. exact (Permutation_map stored_key Q).
Qed.

End P.
