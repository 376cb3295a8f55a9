(** Proofs about the array interval map. *)
From Coq Require Import ZArith Lia Permutation.
From Verif Require Import Base Spec_Interval Model_Array Proof_Interval Proof_Interval2 Proof_Interval3 Proof_Interval4.
Local Open Scope Z_scope.

Section P.
Context {V : Type}.
Notation aslot := (aslot V).
Notation arr := (arr V).
Notation iop := (iop V).

Definition plain (s : aslot) : stored V := (s_id s, s_low s, s_high s, s_val s).

Lemma filter_perm : forall {A} (f : A -> bool) l l', Permutation l l' -> Permutation (filter f l) (filter f l').
Proof.
  induction 1; cbn.
  - constructor.
  - destruct (f x); [constructor|]; assumption.
  - destruct (f x), (f y); try apply Permutation_refl. apply perm_swap.
  - eapply perm_trans; eassumption.
Qed.

Lemma ar_drop_perm : forall low high fuel (kept l : list aslot), (List.length l < fuel)%nat ->
  Permutation (ar_drop fuel low high kept l) (kept ++ filter (fun s => negb (s_overlaps s low high)) l).
Proof.
  induction fuel as [|fuel IH]; intros kept l Hl; [lia|]. destruct l as [|s rest]; [cbn; apply Permutation_refl|].
  cbn [ar_drop filter List.length] in *. destruct (s_overlaps s low high) eqn:E; cbn [negb].
  - destruct rest as [|y rest]; [cbn; rewrite app_nil_r; apply Permutation_refl|].
    assert (P : Permutation (last (y :: rest) s :: removelast (y :: rest)) (y :: rest)).
    { rewrite (app_removelast_last s (l := y :: rest)) at 3 by discriminate. apply Permutation_cons_append. }
    rewrite IH.
    + apply Permutation_app_head. apply filter_perm. exact P.
    + apply Permutation_length in P. rewrite P. lia.
  - rewrite IH by lia. rewrite <- app_assoc. apply Permutation_refl.
Qed.

Lemma filter_plain : forall low high (l : list aslot),
  map plain (filter (fun s => negb (s_overlaps s low high)) l) =
  filter (fun '(id, l, h, v) => negb (meets_b l h low high)) (map plain l).
Proof.
  induction l as [|s l IH]; [reflexivity|]. cbn [filter map plain].
  change (meets_b (s_low s) (s_high s) low high) with (s_overlaps s low high). destruct (negb (s_overlaps s low high)); cbn [map]; rewrite IH; reflexivity.
Qed.

Lemma ras_perm : forall (a : arr) low high amt,
  Permutation (a_slots (ar_remove_and_shift a low high amt))
              (map (s_shift low amt) (filter (fun s => negb (s_overlaps s low high)) (a_slots a))).
Proof.
  intros. unfold ar_remove_and_shift. pose proof (ar_drop_perm low high (S (List.length (a_slots a))) [] (a_slots a) ltac:(lia)) as P. cbn [app] in P.
  destruct (Z.eqb_spec amt 0) as [->|_]; cbn [a_slots].
  - replace (map (s_shift low 0) _) with (filter (fun s => negb (s_overlaps s low high)) (a_slots a)); [exact P|].
    rewrite <- map_id at 1. apply map_ext. intros [r i l h v]. unfold s_shift. cbn. rewrite !Z.add_0_r. destruct (low <=? l); reflexivity.
  - apply Permutation_map. exact P.
Qed.

Lemma run_perm : forall tr : list iop, Permutation (map plain (a_slots (ar_run tr))) (ref_run tr).
Proof.
  intros tr. induction tr as [|o tr IH] using rev_ind; [constructor|].
  unfold ar_run, ref_run in *. rewrite !fold_left_app. cbn [fold_left]. destruct o; cbn [ar_step ref_step]; try exact IH.
  - cbn. rewrite map_app. apply Permutation_app_tail. exact IH.
  - rewrite (ras_perm (fold_left ar_step tr ar_empty) low high amt). rewrite map_map.
    replace (map (fun x => plain (s_shift low amt x)) (filter (fun s => negb (s_overlaps s low high)) (a_slots (fold_left ar_step tr ar_empty))))
      with (map (fun '(id, l, h, v) => if low <=? l then (id, l + amt, h + amt, v) else (id, l, h, v))
             (map plain (filter (fun s => negb (s_overlaps s low high)) (a_slots (fold_left ar_step tr ar_empty))))).
    + apply Permutation_map. rewrite filter_plain. apply filter_perm. exact IH.
    + rewrite map_map. apply map_ext. intros [r i l h v]. unfold s_shift, plain. cbn. destruct (low <=? l); reflexivity.
Qed.

(** all ends are positive *)
Lemma ref_pos : forall tr : list iop, Forall sane tr -> Forall (fun '(id, l, h, v) => 0 <= l < h) (ref_run tr).
Proof.
  intros tr. induction tr as [|o tr IH] using rev_ind; intros S; [constructor|].
  apply Forall_app in S. destruct S as [S1 S2]. inversion S2 as [|? ? S3 _]; subst. specialize (IH S1).
  unfold ref_run in *. rewrite fold_left_app. cbn [fold_left]. destruct o; cbn [ref_step sane] in *; try exact IH.
  - apply Forall_app; split; [exact IH|]. constructor; [lia|constructor].
  - rewrite Forall_map. rewrite Forall_forall in *. intros [[[i l] h] v] Hx. apply filter_In in Hx. destruct Hx as [Hx Hn].
    specialize (IH _ Hx). cbn in IH. unfold meets_b in Hn. apply negb_true_iff, andb_false_iff in Hn. rewrite !Z.ltb_ge in Hn.
    destruct (Z.leb_spec low l); lia.
Qed.

Lemma largest_spec : forall id pos (l : list aslot) max best,
  match ar_largest id pos max best l with
  | Some v =>
      (best = Some v /\ Forall (fun s => s_id s = id -> s_low s = pos -> s_high s <= max) l) \/
      (exists s, In s l /\ s_val s = v /\ s_id s = id /\ s_low s = pos /\ max < s_high s /\
         Forall (fun s' => s_id s' = id -> s_low s' = pos -> s_high s' <= s_high s) l)
  | None => best = None /\ Forall (fun s => s_id s = id -> s_low s = pos -> s_high s <= max) l
  end.
Proof.
  induction l as [|s l IH]; intros max best; cbn [ar_largest].
  - destruct best; [left|]; split; auto.
  - destruct ((s_low s =? pos) && (s_id s =? id) && (max <? s_high s)) eqn:E.
    + rewrite !andb_true_iff, !Z.eqb_eq, Z.ltb_lt in E. specialize (IH (s_high s) (Some (s_val s))).
      destruct (ar_largest id pos (s_high s) (Some (s_val s)) l) as [v|].
      * right. destruct IH as [[A B]|(s' & A & B & C & D & F & G)].
        -- exists s. injection A as <-. split; [left; reflexivity|]. repeat (split; [tauto|]). constructor; [lia|exact B].
        -- exists s'. split; [right; exact A|]. repeat (split; [tauto || lia|]). constructor; [lia|exact G].
      * destruct IH as [A _]. discriminate.
    + specialize (IH max best). assert (Q : s_id s = id -> s_low s = pos -> s_high s <= max).
      { intros H1 H2. rewrite <- H1, <- H2, !Z.eqb_refl in E. cbn in E. apply Z.ltb_ge in E. exact E. }
      destruct (ar_largest id pos max best l) as [v|].
      * destruct IH as [[A B]|(s' & A & B & C & D & F & G)].
        -- left. split; [exact A|]. constructor; assumption.
        -- right. exists s'. split; [right; exact A|]. repeat (split; [tauto || lia|]). constructor; [|exact G]. intros H1 H2. specialize (Q H1 H2). lia.
      * destruct IH as [A B]. split; [exact A|]. constructor; assumption.
Qed.

Lemma array_find : forall (tr : list iop) id pos, Forall sane tr ->
  match ar_find (ar_run tr) id pos with
  | Some v => exists h, In (id, pos, h, v) (ref_run tr) /\ forall h' v', In (id, pos, h', v') (ref_run tr) -> h' <= h
  | None => forall h v, ~ In (id, pos, h, v) (ref_run tr)
  end.
Proof.
  intros tr id pos S. pose proof (run_perm tr) as P. pose proof (ref_pos tr S) as R. rewrite Forall_forall in R.
  pose proof (largest_spec id pos (a_slots (ar_run tr)) 0 None) as L. unfold ar_find.
  assert (Q : forall h v, In (id, pos, h, v) (ref_run tr) -> exists s, In s (a_slots (ar_run tr)) /\ s_id s = id /\ s_low s = pos /\ s_high s = h).
  { intros h v H. apply (Permutation_in _ (Permutation_sym P)) in H. apply in_map_iff in H. destruct H as (s & E & H). exists s. injection E as E1 E2 E3 E4. auto. }
  destruct (ar_largest id pos 0 None (a_slots (ar_run tr))) as [v|].
  - destruct L as [[A _]|(s & A & B & C & D & F & G)]; [discriminate|]. exists (s_high s). split.
    + apply (Permutation_in _ P). apply in_map_iff. exists s. split; [unfold plain; congruence|exact A].
    + intros h' v' H. destruct (Q h' v' H) as (s' & H1 & H2 & H3 & H4). rewrite Forall_forall in G. specialize (G s' H1 H2 H3). lia.
  - destruct L as [_ L]. intros h v H. destruct (Q h v H) as (s' & H1 & H2 & H3 & H4). rewrite Forall_forall in L. specialize (L s' H1 H2 H3).
    specialize (R _ H). cbn in R. lia.
Qed.

(** handles *)
Lemma ar_refs : forall tr : list iop, NoDup (map s_ref (a_slots (ar_run tr))) /\
  Forall (fun r => (r < a_next (ar_run tr))%nat) (map s_ref (a_slots (ar_run tr))).
Proof.
  intros tr. induction tr as [|o tr IH] using rev_ind; [split; constructor|].
  unfold ar_run in *. rewrite !fold_left_app. cbn [fold_left]. set (a := fold_left ar_step tr ar_empty) in *. destruct IH as [N F].
  destruct o; cbn [ar_step]; [| auto | | auto].
  - cbn [fst ar_add a_slots a_next]. rewrite map_app. cbn [map s_ref]. split.
    + apply NoDup_Add with (a := a_next a) (l := map s_ref (a_slots a)).
      { rewrite <- (app_nil_r (map s_ref (a_slots a))) at 1. apply Add_app. }
      split; [exact N|]. intros H. rewrite Forall_forall in F. specialize (F _ H). cbn in F. lia.
    + apply Forall_app; split; [eapply Forall_impl; [|exact F]; cbn; lia|]. constructor; [lia|constructor].
  - pose proof (ras_perm a low high amt) as P. apply (Permutation_map s_ref) in P. rewrite map_map in P.
    replace (map (fun x => s_ref (s_shift low amt x)) _) with (map s_ref (filter (fun s => negb (s_overlaps s low high)) (a_slots a))) in P.
    2:{ apply map_ext. intros s. unfold s_shift. destruct (low <=? s_low s); reflexivity. }
    assert (S : subseq (map s_ref (filter (fun s => negb (s_overlaps s low high)) (a_slots a))) (map s_ref (a_slots a))).
    { clear. induction (a_slots a) as [|s l IH]; cbn; [constructor|]. destruct (negb _); [apply sub_keep|apply sub_skip]; exact IH. }
    assert (E : a_next (ar_remove_and_shift a low high amt) = a_next a) by (unfold ar_remove_and_shift; destruct (amt =? 0); reflexivity).
    rewrite E. split.
    + eapply Permutation_NoDup; [apply Permutation_sym; exact P|]. eapply subseq_NoDup; eassumption.
    + eapply Permutation_Forall; [apply Permutation_sym; exact P|]. eapply incl_Forall; [apply subseq_incl; exact S|exact F].
Qed.

Lemma ar_survives : forall b (a : arr) r id p len v, In (Slot r id p (p + len) v) (a_slots a) -> survives p len b ->
  In (Slot r id (follow p b) (follow p b + len) v) (a_slots (fold_left ar_step b a)).
Proof.
  induction b as [|o b IH]; intros a r id p len v H S; [exact H|]. cbn [fold_left]. destruct S as [S1 S2].
  unfold follow. cbn [fold_left]. apply IH; [|exact S2]. destruct o; cbn [ar_step moved]; try exact H.
  - cbn. apply in_or_app. tauto.
  - apply (Permutation_in _ (Permutation_sym (ras_perm a low high amt))). apply in_map_iff. exists (Slot r id p (p + len) v). split.
    + unfold s_shift. cbn. destruct (low <=? p); [|reflexivity]. f_equal. lia.
    + apply filter_In. split; [exact H|]. unfold s_overlaps. cbn. unfold meets in S1. apply negb_true_iff, andb_false_iff. rewrite !Z.ltb_ge. lia.
Qed.

Lemma array_pos : forall (a b : list iop) id low high v, survives low (high - low) b ->
  ar_pos (ar_run (a ++ OAdd id low high v :: b)) (snd (ar_add (ar_run a) id low high v)) = Some (follow low b).
Proof.
  intros a b id low high v S. set (h := snd _). unfold ar_pos.
  assert (K : In (Slot h id (follow low b) (follow low b + (high - low)) v) (a_slots (ar_run (a ++ OAdd id low high v :: b)))).
  { unfold ar_run. rewrite fold_left_app. cbn [fold_left]. apply ar_survives; [|exact S]. cbn. apply in_or_app. right. left.
    unfold h. cbn. f_equal. lia. }
  destruct (ar_refs (a ++ OAdd id low high v :: b)) as [N _].
  destruct (find _ _) as [s|] eqn:E.
  - apply find_some in E. destruct E as [E1 E2]. apply Nat.eqb_eq in E2.
    enough (s = Slot h id (follow low b) (follow low b + (high - low)) v) by (subst s; reflexivity).
    revert N E1 K E2. generalize (a_slots (ar_run (a ++ OAdd id low high v :: b))).
    induction l as [|x l IH]; cbn; intros N E1 K E2; [contradiction|]. inversion N; subst.
    destruct E1 as [E1|E1]; destruct K as [K|K]; subst; auto.
    + exfalso. apply H1. apply in_map_iff. eexists. split; [|exact K]. cbn. congruence.
    + exfalso. apply H1. apply in_map_iff. eexists. split; [|exact E1]. cbn. congruence.
  - exfalso. pose proof (find_none _ _ E _ K) as Q. cbn in Q. rewrite Nat.eqb_refl in Q. discriminate.
Qed.

End P.
