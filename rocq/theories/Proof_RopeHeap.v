(** The ropes over a heap of arrays show the same bytes as the ropes over byte strings. *)
From Coq Require Import ZArith Lia Permutation.
From Verif Require Import Base Model_Rope Model_RopeHeap Spec_Rope Proof_Rope.
Local Open Scope nat_scope.

Definition valid (h : bheap) (s : bslice) : Prop :=
  bs_arr s < List.length h /\ bs_len s <= bs_cap s /\ bs_off s + bs_cap s <= List.length (barr h (bs_arr s)).
Definition grows (h h' : bheap) : Prop := exists x, h' = h ++ x.
Definition keeps (U : nat -> Prop) (h h' : bheap) : Prop :=
  List.length h <= List.length h' /\ forall a, a < List.length h -> U a -> barr h' a = barr h a.

Lemma barr_old : forall h x a, a < List.length h -> barr (h ++ x) a = barr h a.
Proof. intros. unfold barr. now apply app_nth1. Qed.
Lemma barr_new : forall h x, barr (h ++ [x]) (List.length h) = x.
Proof. intros. unfold barr. rewrite app_nth2, Nat.sub_diag by lia. reflexivity. Qed.
Lemma bset_new : forall h x y, bset (h ++ [x]) (List.length h) y = h ++ [y].
Proof. induction h; intros; cbn; [reflexivity|]. now rewrite IHh. Qed.
Lemma bset_len : forall h a x, List.length (bset h a x) = List.length h.
Proof. induction h; intros [|n] x; cbn; auto. Qed.
Lemma bset_same : forall h a x, a < List.length h -> barr (bset h a x) a = x.
Proof. induction h; intros [|n] x H; cbn in *; try lia; [reflexivity|]. apply IHh. lia. Qed.
Lemma bset_other : forall h a b x, a <> b -> barr (bset h a x) b = barr h b.
Proof. induction h; intros [|n] [|m] x H; cbn; auto; try congruence. apply IHh. lia. Qed.

Lemma grows_refl : forall h, grows h h.
Proof. intros h. exists []. now rewrite app_nil_r. Qed.
Lemma grows_one : forall h x, grows h (h ++ [x]).
Proof. intros h x. now exists [x]. Qed.
Lemma grows_trans : forall a b c, grows a b -> grows b c -> grows a c.
Proof. intros a b c [x ->] [y ->]. exists (x ++ y). now rewrite app_assoc. Qed.
Lemma grows_keeps : forall U h h', grows h h' -> keeps U h h'.
Proof. intros U h h' [x ->]. split; [rewrite app_length; lia|]. intros a L _. now apply barr_old. Qed.
Lemma grows_len : forall h h', grows h h' -> List.length h <= List.length h'.
Proof. intros h h' [x ->]. rewrite app_length. lia. Qed.
Lemma keeps_trans : forall U a b c, keeps U a b -> keeps U b c -> keeps U a c.
Proof. intros U a b c [L1 K1] [L2 K2]. split; [lia|]. intros x H u. rewrite K2 by (lia || exact u). now apply K1. Qed.
Lemma keeps_sub : forall (U V : nat -> Prop) a b, (forall x, V x -> U x) -> keeps U a b -> keeps V a b.
Proof. intros U V a b S [L K]. split; [exact L|]. auto. Qed.

Lemma keeps_valid : forall h h' s, valid h s -> keeps (eq (bs_arr s)) h h' -> valid h' s.
Proof. intros h h' s (A & B & C) [L K]. repeat split; try lia. now rewrite K. Qed.
Lemma keeps_read : forall h h' s, valid h s -> keeps (eq (bs_arr s)) h h' -> bread h' s = bread h s.
Proof. intros h h' s (A & B & C) [L K]. unfold bread. now rewrite K. Qed.
Lemma grows_valid : forall h h' s, valid h s -> grows h h' -> valid h' s.
Proof. intros. eapply keeps_valid; eauto using grows_keeps. Qed.
Lemma grows_read : forall h h' s, valid h s -> grows h h' -> bread h' s = bread h s.
Proof. intros. eapply keeps_read; eauto using grows_keeps. Qed.

Lemma read_len : forall h s, valid h s -> List.length (bread h s) = bs_len s.
Proof. intros h s (A & B & C). unfold bread. rewrite firstn_length, skipn_length. lia. Qed.
Lemma arr_parts : forall h s, valid h s -> exists p q, barr h (bs_arr s) = p ++ bread h s ++ q /\ List.length p = bs_off s /\ bs_cap s <= bs_len s + List.length q.
Proof.
  intros h s V. pose proof V as (A & B & C). exists (firstn (bs_off s) (barr h (bs_arr s))), (skipn (bs_len s) (skipn (bs_off s) (barr h (bs_arr s)))).
  unfold bread. rewrite firstn_skipn, firstn_skipn, firstn_length, !skipn_length. repeat split; lia.
Qed.
Lemma read_mid : forall h a p m q n c, barr h a = p ++ m ++ q -> n = List.length m -> bread h (BS a (List.length p) n c) = m.
Proof.
  intros h a p m q n c E ->. unfold bread. cbn [bs_len bs_off bs_arr]. rewrite E, skipn_app, skipn_all, Nat.sub_diag. cbn.
  rewrite firstn_app, firstn_all, Nat.sub_diag. cbn. apply app_nil_r.
Qed.

(** ** writing *)
Definition over (l : list byte) (off : nat) (x : list byte) : list byte := firstn off l ++ x ++ skipn (off + List.length x) l.
Lemma over_mid : forall p m q x, List.length x = List.length m -> over (p ++ m ++ q) (List.length p) x = p ++ x ++ q.
Proof.
  intros p m q x L. unfold over. rewrite firstn_app, firstn_all, Nat.sub_diag. cbn [firstn]. rewrite app_nil_r, skipn_app, skipn_all2 by lia.
  replace (List.length p + List.length x - List.length p) with (List.length m) by lia. rewrite skipn_app, skipn_all, Nat.sub_diag. reflexivity.
Qed.
Lemma bput_new : forall h l off x, bput (h ++ [l]) (List.length h) off x = h ++ [over l off x].
Proof. intros. unfold bput. rewrite barr_new. apply bset_new. Qed.
Lemma bput_arr : forall h a off x, a < List.length h -> barr (bput h a off x) a = over (barr h a) off x.
Proof. intros. unfold bput. now apply bset_same. Qed.
Lemma bput_keeps : forall h a off x, keeps (fun b => a <> b) h (bput h a off x).
Proof. intros. unfold bput. split; [now rewrite bset_len|]. intros b L N. now apply bset_other. Qed.

Lemma cut_pre : forall s k, k <= bs_len s -> bs_len s <= bs_cap s -> bcut s 0 k = Some (BS (bs_arr s) (bs_off s) k (bs_cap s)).
Proof. intros s k H C. unfold bcut. rewrite (proj2 (Nat.leb_le k _)) by lia. cbn. rewrite Nat.add_0_r, !Nat.sub_0_r. reflexivity. Qed.
Lemma cut_some : forall s a b, a <= b <= bs_cap s -> bcut s a b = Some (BS (bs_arr s) (bs_off s + a) (b - a) (bs_cap s - a)).
Proof. intros s a b H. unfold bcut. rewrite (proj2 (Nat.leb_le a b)), (proj2 (Nat.leb_le b _)) by lia. reflexivity. Qed.
Lemma cut_read : forall h s a b x, valid h s -> a <= b <= bs_len s -> bcut s a b = Some x ->
  valid h x /\ bread h x = firstn (b - a) (skipn a (bread h s)) /\ bs_arr x = bs_arr s /\ bs_len x = b - a.
Proof.
  intros h s a b x (A & B & C) H E. rewrite cut_some in E by lia. injection E as <-. split; [|split; [|split]]; [| |reflexivity|reflexivity].
  - unfold valid. cbn [bs_arr bs_len bs_cap bs_off]. lia.
  - unfold bread. cbn [bs_arr bs_len bs_cap bs_off]. rewrite skipn_firstn_comm, firstn_firstn, Nat.min_l by lia. rewrite skipn_add. reflexivity.
Qed.
Lemma cut3_read : forall h s a b, valid h s -> a <= b <= bs_len s -> exists x, bcut3 s a b = Some x /\
  valid h x /\ bread h x = firstn (b - a) (skipn a (bread h s)) /\ bs_arr x = bs_arr s /\ bs_len x = bs_cap x.
Proof.
  intros h s a b (A & B & C) H. unfold bcut3. rewrite (proj2 (Nat.leb_le a b)), (proj2 (Nat.leb_le b _)) by lia. eexists. split; [reflexivity|].
  split; [|split; [|split]]; [| |reflexivity|reflexivity].
  - unfold valid. cbn [bs_arr bs_len bs_cap bs_off]. lia.
  - unfold bread. cbn [bs_arr bs_len bs_cap bs_off]. rewrite skipn_firstn_comm, firstn_firstn, Nat.min_l by lia. rewrite skipn_add. reflexivity.
Qed.

Lemma repeat_split : forall n a, a <= n -> repeat x00 n = repeat x00 a ++ repeat x00 (n - a).
Proof. intros n a H. rewrite <- repeat_app. f_equal. lia. Qed.

Lemma concat_spec : forall h a b, valid h a -> valid h b -> let n := bs_len a + bs_len b in
  hs_concat h a b = Some (h ++ [bread h a ++ bread h b], BS (List.length h) 0 n n).
Proof.
  intros h a b Va Vb n. unfold hs_concat, bmake. cbn [Nat.leb obind].
  pose proof (read_len h a Va) as La. pose proof (read_len h b Vb) as Lb.
  rewrite cut_some by (cbn; lia). cbn [obind bs_arr bs_off bs_cap Nat.add]. rewrite Nat.sub_0_r.
  unfold bcopy at 2. cbn [bs_arr bs_off bs_len bs_cap].
  rewrite (grows_read h _ a Va (grows_one _ _)), bput_new.
  rewrite firstn_all2 by lia.
  fold n. rewrite (repeat_split n (bs_len a)) by lia.
  pose proof (over_mid [] (repeat x00 (bs_len a)) (repeat x00 (n - bs_len a)) (bread h a)) as O. cbn [List.length app] in O.
  rewrite O by (rewrite repeat_length; exact La). clear O.
  rewrite cut_some by (cbn; lia). cbn [obind bs_arr bs_off bs_cap Nat.add].
  unfold bcopy. cbn [bs_arr bs_off bs_len bs_cap]. rewrite (grows_read h _ b Vb (grows_one _ _)), bput_new.
  rewrite firstn_all2 by lia. rewrite cut_some by (cbn; lia). cbn [obind bs_arr bs_off bs_cap Nat.add]. rewrite !Nat.sub_0_r.
  pose proof (over_mid (bread h a) (repeat x00 (n - bs_len a)) [] (bread h b)) as O. rewrite La, !app_nil_r in O. rewrite O by (rewrite repeat_length; lia). reflexivity.
Qed.

(** a slice may be written if it has spare capacity *)
Definition open (s : bslice) : Prop := bs_len s < bs_cap s.

Lemma insert_spec : forall h s k v, valid h s -> valid h v -> k <= bs_len s -> (open s -> bs_arr v <> bs_arr s) ->
  exists h' s', hs_insert h s k v = Some (h', s') /\ valid h' s' /\ bread h' s' = firstn k (bread h s) ++ bread h v ++ skipn k (bread h s) /\
    (~ open s' /\ bs_arr s' = List.length h /\ grows h h' \/
     bs_arr s' = bs_arr s /\ keeps (fun a => a <> bs_arr s) h h' /\ (open s' -> open s) /\ (~ open s -> keeps (fun _ => True) h h')).
Proof.
  intros h s k v Vs Vv Hk NA. pose proof Vs as (A & B & C). pose proof (read_len h s Vs) as Ls. pose proof (read_len h v Vv) as Lv.
  unfold hs_insert. set (n := bs_len s + bs_len v). destruct (n <=? bs_cap s) eqn:E.
  - apply Nat.leb_le in E. rewrite cut_some by lia. cbn [obind]. rewrite cut_some by (cbn; lia). cbn [obind].
    rewrite (cut_some s k) by lia. cbn [obind]. rewrite cut_some by (cbn; lia). cbn [obind bs_arr bs_off bs_len bs_cap].
    rewrite !Nat.add_0_r, !Nat.sub_0_r.
    destruct (cut_read h s k (bs_len s) _ Vs ltac:(lia) (cut_some s k (bs_len s) ltac:(lia))) as (Vx & Rx & _).
    set (d := BS (bs_arr s) (bs_off s + (k + bs_len v)) (n - (k + bs_len v)) (bs_cap s - (k + bs_len v))).
    set (x := BS (bs_arr s) (bs_off s + k) (bs_len s - k) (bs_cap s - k)) in *.
    assert (T : bread h x = skipn k (bread h s)). { rewrite Rx. apply firstn_all2. rewrite skipn_length. lia. }
    destruct (arr_parts h s Vs) as (p & q & P & Lp & Lq).
    assert (H1 : exists m q', barr (bcopy h d x) (bs_arr s) = (p ++ firstn k (bread h s)) ++ m ++ skipn k (bread h s) ++ q' /\ List.length m = bs_len v).
    { unfold bcopy. subst d. cbn [bs_arr bs_off bs_len]. rewrite bput_arr by lia. rewrite T, P.
      set (S := bread h s) in *. set (K := skipn k S).
      assert (LK : List.length K = bs_len s - k) by (subst K; rewrite skipn_length; lia).
      rewrite (firstn_all2 K) by lia.
      set (Y := skipn k S ++ q).
      assert (LY : List.length Y = bs_len s - k + List.length q) by (subst Y; rewrite app_length; fold K; lia).
      exists (firstn (bs_len v) Y), (skipn (List.length K) (skipn (bs_len v) Y)).
      replace (p ++ S ++ q) with ((p ++ firstn k S ++ firstn (bs_len v) Y) ++ firstn (List.length K) (skipn (bs_len v) Y) ++ skipn (List.length K) (skipn (bs_len v) Y)).
      2:{ rewrite <- !app_assoc, firstn_skipn, firstn_skipn. subst Y. rewrite (app_assoc (firstn k S)), firstn_skipn. reflexivity. }
      replace (bs_off s + (k + bs_len v)) with (List.length (p ++ firstn k S ++ firstn (bs_len v) Y)) by (rewrite !app_length, !firstn_length; lia).
      rewrite over_mid by (rewrite firstn_length, skipn_length; lia). split; [now rewrite <- !app_assoc|]. rewrite firstn_length. lia. }
    destruct H1 as (m & q' & E1 & Lm). set (h1 := bcopy h d x) in *.
    assert (K1 : keeps (fun a => a <> bs_arr s) h h1) by (apply keeps_sub with (U := fun a => bs_arr s <> a); [congruence|apply bput_keeps]).
    assert (Rv : bread h1 v = bread h v).
    { destruct (Nat.eq_dec (bs_len s) (bs_cap s)) as [F|F].
      - unfold bread. replace (bs_len v) with 0 by lia. reflexivity.
      - apply keeps_read; [exact Vv|]. eapply keeps_sub; [|exact K1]. intros y <-. apply NA. unfold open. lia. }
    set (d2 := BS (bs_arr s) (bs_off s + k) (n - k) (bs_cap s - k)).
    assert (E2 : barr (bcopy h1 d2 v) (bs_arr s) = p ++ (firstn k (bread h s) ++ bread h v ++ skipn k (bread h s)) ++ q').
    { unfold bcopy. subst d2. cbn [bs_arr bs_off bs_len]. rewrite bput_arr by (destruct K1; lia). rewrite Rv, firstn_all2 by lia. rewrite E1.
      replace (bs_off s + k) with (List.length (p ++ firstn k (bread h s))) by (rewrite app_length, firstn_length; lia).
      rewrite over_mid by lia. now rewrite <- !app_assoc. }
    exists (bcopy h1 d2 v), (BS (bs_arr s) (bs_off s) n (bs_cap s)). split; [reflexivity|].
    assert (K2 : keeps (fun a => a <> bs_arr s) h (bcopy h1 d2 v)).
    { eapply keeps_trans; [exact K1|]. apply keeps_sub with (U := fun a => bs_arr s <> a); [congruence|apply bput_keeps]. }
    assert (LE : List.length (barr (bcopy h1 d2 v) (bs_arr s)) = List.length (barr h (bs_arr s))).
    { unfold bcopy. subst d2. cbn [bs_arr bs_off bs_len]. rewrite bput_arr by (destruct K1; lia). rewrite Rv, firstn_all2 by lia. rewrite E1.
      replace (bs_off s + k) with (List.length (p ++ firstn k (bread h s))) by (rewrite app_length, firstn_length; lia).
      rewrite over_mid by lia.
      transitivity (List.length (barr h1 (bs_arr s))). { rewrite E1, !app_length. lia. }
      unfold h1, bcopy. subst d. cbn [bs_arr bs_off bs_len]. rewrite bput_arr by lia. rewrite T, firstn_all2 by (rewrite skipn_length; lia).
      unfold over. rewrite !app_length, firstn_length, !skipn_length. lia. }
    split; [|split].
    + unfold valid. cbn [bs_arr bs_off bs_len bs_cap]. rewrite LE. destruct K2; lia.
    + rewrite <- Lp. eapply read_mid; [exact E2|]. rewrite !app_length, firstn_length, skipn_length. lia.
    + right. split; [reflexivity|]. split; [exact K2|]. split; [unfold open; cbn; lia|]. intros NO. split; [destruct K2; lia|]. intros a La _.
      destruct (Nat.eq_dec a (bs_arr s)) as [->|N]; [|now apply K2]. rewrite E2, P. unfold open in NO.
      assert (Zv : bs_len v = 0) by lia. destruct (bread h v) as [|? ?] eqn:Z; [|cbn in Lv; lia]. cbn [app]. rewrite firstn_skipn.
      f_equal. f_equal.
      assert (m = []) by (destruct m; [reflexivity|cbn in Lm; lia]). subst m. cbn [app] in E1.
      (* the first copy wrote what was there *)
      unfold h1, bcopy in E1. subst d. cbn [bs_arr bs_off bs_len] in E1. rewrite bput_arr in E1 by lia. rewrite T in E1.
      rewrite firstn_all2 in E1 by (rewrite skipn_length; lia). rewrite Zv, Nat.add_0_r in E1.
      assert (OV : over (barr h (bs_arr s)) (bs_off s + k) (skipn k (bread h s)) = barr h (bs_arr s)).
      { rewrite P at 1. rewrite <- (firstn_skipn k (bread h s)) at 1. rewrite <- !app_assoc, app_assoc.
        replace (bs_off s + k) with (List.length (p ++ firstn k (bread h s))) by (rewrite app_length, firstn_length; lia).
        rewrite over_mid by reflexivity. rewrite P. rewrite <- !app_assoc. f_equal. rewrite app_assoc, firstn_skipn. reflexivity. }
      rewrite OV, P in E1. rewrite <- app_assoc in E1. apply app_inv_head in E1. rewrite (app_assoc (firstn k (bread h s))), firstn_skipn in E1.
      apply app_inv_head in E1. congruence.
  - apply Nat.leb_gt in E. unfold bmake. rewrite Nat.leb_refl. cbn [obind]. rewrite (cut_some s 0 k) by lia. cbn [obind].
    rewrite cut_some by (cbn; lia). cbn [obind]. rewrite cut_some by (cbn; lia). cbn [obind]. rewrite cut_some by lia. cbn [obind bs_arr bs_off bs_len bs_cap].
    rewrite !Nat.add_0_r, !Nat.sub_0_r. cbn [Nat.add].
    set (h0 := h ++ [repeat x00 n]).
    destruct (cut_read h s 0 k _ Vs ltac:(lia) (cut_some s 0 k ltac:(lia))) as (V1 & R1 & _).
    rewrite Nat.add_0_r, !Nat.sub_0_r in R1, V1. cbn [skipn] in R1.
    destruct (cut_read h s k (bs_len s) _ Vs ltac:(lia) (cut_some s k (bs_len s) ltac:(lia))) as (V2 & R2 & _).
    rewrite firstn_all2 in R2 by (rewrite skipn_length; lia).
    set (x1 := BS (bs_arr s) (bs_off s) k (bs_cap s)) in *. set (x2 := BS (bs_arr s) (bs_off s + k) (bs_len s - k) (bs_cap s - k)) in *.
    assert (S1 : bcopy h0 (BS (List.length h) 0 n n) x1 = h ++ [firstn k (bread h s) ++ repeat x00 (n - k)]).
    { unfold bcopy. cbn [bs_arr bs_off bs_len]. unfold h0. rewrite (grows_read h _ x1 V1 (grows_one _ _)), R1, bput_new.
      rewrite (firstn_all2 (firstn k (bread h s))) by (rewrite firstn_length; lia). rewrite (repeat_split n k) by lia.
      pose proof (over_mid [] (repeat x00 k) (repeat x00 (n - k)) (firstn k (bread h s))) as O. cbn [List.length app] in O.
      rewrite O by (rewrite repeat_length, firstn_length; lia). reflexivity. }
    rewrite S1.
    assert (S2 : bcopy (h ++ [firstn k (bread h s) ++ repeat x00 (n - k)]) (BS (List.length h) k (n - k) (n - k)) v =
                 h ++ [firstn k (bread h s) ++ bread h v ++ repeat x00 (n - k - bs_len v)]).
    { unfold bcopy. cbn [bs_arr bs_off bs_len]. rewrite (grows_read h _ v Vv (grows_one _ _)), bput_new, (firstn_all2 (bread h v)) by lia.
      rewrite (repeat_split (n - k) (bs_len v)) by lia.
      replace k with (List.length (firstn k (bread h s))) at 3 by (rewrite firstn_length; lia).
      rewrite over_mid by (rewrite repeat_length; exact Lv). reflexivity. }
    rewrite S2.
    assert (S3 : bcopy (h ++ [firstn k (bread h s) ++ bread h v ++ repeat x00 (n - k - bs_len v)]) (BS (List.length h) (k + bs_len v) (n - (k + bs_len v)) (n - (k + bs_len v))) x2 =
                 h ++ [firstn k (bread h s) ++ bread h v ++ skipn k (bread h s)]).
    { unfold bcopy. cbn [bs_arr bs_off bs_len]. rewrite (grows_read h _ x2 V2 (grows_one _ _)), R2, bput_new, (firstn_all2 (skipn k (bread h s))) by (rewrite skipn_length; lia).
      rewrite app_assoc. replace (k + bs_len v) with (List.length (firstn k (bread h s) ++ bread h v)) by (rewrite app_length, firstn_length; lia).
      rewrite <- (app_nil_r (repeat x00 (n - k - bs_len v))). rewrite over_mid by (rewrite repeat_length, skipn_length; lia). rewrite app_nil_r, <- app_assoc. reflexivity. }
    rewrite S3. eexists _, _. split; [reflexivity|]. split; [|split].
    + unfold valid. cbn [bs_arr bs_off bs_len bs_cap]. rewrite barr_new, app_length, !app_length, firstn_length, skipn_length. cbn. lia.
    + pose proof (read_mid (h ++ [firstn k (bread h s) ++ bread h v ++ skipn k (bread h s)]) (List.length h) [] (firstn k (bread h s) ++ bread h v ++ skipn k (bread h s)) [] n n) as R.
      cbn [List.length app] in R. apply R; [rewrite barr_new, app_nil_r; reflexivity|]. rewrite !app_length, firstn_length, skipn_length. lia.
    + left. split; [unfold open; cbn; lia|]. split; [reflexivity|apply grows_one].
Qed.

Lemma remove_spec : forall h s a b, valid h s -> a <= b <= bs_len s ->
  exists h' s', hs_remove h s a b = Some (h', s') /\ valid h' s' /\ bread h' s' = firstn a (bread h s) ++ skipn b (bread h s) /\
    (bs_arr s' = List.length h /\ grows h h' \/ bs_arr s' = bs_arr s /\ open s /\ keeps (fun a => a <> bs_arr s) h h').
Proof.
  intros h s a b Vs H. pose proof Vs as (A & B & C). pose proof (read_len h s Vs) as Ls.
  unfold hs_remove. rewrite (proj2 (Nat.leb_le a b)), (proj2 (Nat.leb_le b _)) by lia. cbn [negb andb].
  destruct (cut_read h s b (bs_len s) _ Vs ltac:(lia) (cut_some s b (bs_len s) ltac:(lia))) as (V2 & R2 & _).
  rewrite firstn_all2 in R2 by (rewrite skipn_length; lia).
  destruct (bs_len s =? bs_cap s) eqn:E.
  - apply Nat.eqb_eq in E. unfold bmake. rewrite (proj2 (Nat.leb_le _ _)) by lia. cbn [obind].
    rewrite (cut_some s 0 a) by lia. cbn [obind]. rewrite cut_some by (cbn; lia). cbn [obind]. rewrite (cut_some s b) by lia. cbn [obind bs_arr bs_off bs_len bs_cap].
    rewrite !Nat.add_0_r, !Nat.sub_0_r. cbn [Nat.add]. set (n := bs_len s - (b - a)).
    destruct (cut_read h s 0 a _ Vs ltac:(lia) (cut_some s 0 a ltac:(lia))) as (V1 & R1 & _).
    rewrite Nat.add_0_r, !Nat.sub_0_r in R1, V1. cbn [skipn] in R1.
    set (x1 := BS (bs_arr s) (bs_off s) a (bs_cap s)) in *. set (x2 := BS (bs_arr s) (bs_off s + b) (bs_len s - b) (bs_cap s - b)) in *.
    assert (S1 : bcopy (h ++ [repeat x00 (bs_cap s)]) (BS (List.length h) 0 n (bs_cap s)) x1 = h ++ [firstn a (bread h s) ++ repeat x00 (bs_cap s - a)]).
    { unfold bcopy. cbn [bs_arr bs_off bs_len]. rewrite (grows_read h _ x1 V1 (grows_one _ _)), R1, bput_new.
      rewrite (firstn_all2 (firstn a (bread h s))) by (rewrite firstn_length; lia). rewrite (repeat_split (bs_cap s) a) by lia.
      pose proof (over_mid [] (repeat x00 a) (repeat x00 (bs_cap s - a)) (firstn a (bread h s))) as O. cbn [List.length app] in O.
      rewrite O by (rewrite repeat_length, firstn_length; lia). reflexivity. }
    rewrite S1.
    assert (S2 : bcopy (h ++ [firstn a (bread h s) ++ repeat x00 (bs_cap s - a)]) (BS (List.length h) a (n - a) (bs_cap s - a)) x2 =
                 h ++ [(firstn a (bread h s) ++ skipn b (bread h s)) ++ repeat x00 (b - a)]).
    { unfold bcopy. cbn [bs_arr bs_off bs_len]. rewrite (grows_read h _ x2 V2 (grows_one _ _)), R2, bput_new, (firstn_all2 (skipn b (bread h s))) by (rewrite skipn_length; lia).
      rewrite (repeat_split (bs_cap s - a) (bs_len s - b)) by lia.
      replace a with (List.length (firstn a (bread h s))) at 3 by (rewrite firstn_length; lia).
      rewrite over_mid by (rewrite repeat_length, skipn_length; lia). rewrite <- app_assoc. do 5 f_equal. lia. }
    rewrite S2. eexists _, _. split; [reflexivity|]. split; [|split].
    + unfold valid. cbn [bs_arr bs_off bs_len bs_cap]. rewrite barr_new, !app_length, firstn_length, skipn_length, repeat_length. cbn. lia.
    + pose proof (read_mid (h ++ [(firstn a (bread h s) ++ skipn b (bread h s)) ++ repeat x00 (b - a)]) (List.length h) [] (firstn a (bread h s) ++ skipn b (bread h s)) (repeat x00 (b - a)) n (bs_cap s)) as R.
      cbn [List.length app] in R. apply R; [rewrite barr_new; reflexivity|]. rewrite !app_length, firstn_length, skipn_length. lia.
    + left. split; [reflexivity|apply grows_one].
  - apply Nat.eqb_neq in E. rewrite (cut_some s b) by lia. cbn [obind bs_arr bs_off bs_len bs_cap].
    rewrite cut_some by lia. cbn [obind]. rewrite cut_some by lia. cbn [obind].
    rewrite !Nat.add_0_r, !Nat.sub_0_r.
    set (x2 := BS (bs_arr s) (bs_off s + b) (bs_len s - b) (bs_cap s - b)) in *.
    set (d := BS (bs_arr s) (bs_off s + a) (a + (bs_len s - b) - a) (bs_cap s - a)).
    destruct (arr_parts h s Vs) as (p & q & P & Lp & Lq).
    set (S := bread h s) in *. set (K := skipn b S) in *.
    assert (LK : List.length K = bs_len s - b) by (subst K; rewrite skipn_length; lia).
    set (Y := skipn a S).
    assert (LY : List.length Y = bs_len s - a) by (subst Y; rewrite skipn_length; lia).
    assert (E1 : barr (bcopy h d x2) (bs_arr s) = p ++ (firstn a S ++ K) ++ skipn (List.length K) Y ++ q).
    { unfold bcopy. subst d. cbn [bs_arr bs_off bs_len]. rewrite bput_arr by lia. rewrite R2, P. rewrite (firstn_all2 K) by lia.
      replace (p ++ S ++ q) with ((p ++ firstn a S) ++ firstn (List.length K) Y ++ skipn (List.length K) Y ++ q).
      2:{ rewrite (app_assoc (firstn (List.length K) Y)), firstn_skipn. subst Y. rewrite <- app_assoc, (app_assoc (firstn a S)), firstn_skipn. reflexivity. }
      replace (bs_off s + a) with (List.length (p ++ firstn a S)) by (rewrite !app_length, !firstn_length; lia).
      rewrite over_mid by (rewrite firstn_length; lia). now rewrite <- !app_assoc. }
    assert (K2 : keeps (fun a => a <> bs_arr s) h (bcopy h d x2)) by (apply keeps_sub with (U := fun a => bs_arr s <> a); [congruence|apply bput_keeps]).
    eexists _, _. split; [reflexivity|]. split; [|split].
    + unfold valid. cbn [bs_arr bs_off bs_len bs_cap]. rewrite E1, !app_length, skipn_length, firstn_length. rewrite P, !app_length in C. destruct K2. fold S in Ls. lia.
    + rewrite <- Lp. eapply read_mid; [exact E1|]. rewrite !app_length, firstn_length. lia.
    + right. split; [reflexivity|]. split; [unfold open; lia|exact K2].
Qed.
