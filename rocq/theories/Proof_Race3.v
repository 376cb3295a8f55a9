(** Proofs for Model_Race, continued: one goroutine alone does what Model_Interval says. *)
From Coq Require Import ZArith Lia List.
From Verif Require Import Base Model_Interval Spec_Interval Model_Detach Model_Race Proof_Interval Proof_Interval2 Proof_Interval3 Proof_Interval4 Proof_Detach Proof_Race Proof_Race2 Proof_Props4 Spec_Race.
Local Open Scope Z_scope.

Lemma alone_bind : forall {A B} (p : prog A) (q : A -> prog B) m, alone m (pbind p q) = let (m1, a) := alone m p in alone m1 (q a).
Proof. intros A B p q. induction p; intro m; cbn [pbind alone]; auto. Qed.

Section Alone.
Context {V : Type}.
Variable h : nat.

Lemma alone_ins : forall amt c k m, exists m', alone m (p_ins h amt k c) = (m', tt) /\ framed h m m' /\
  m' h FPos = m h FPos /\ m' h FTs = m h FTs /\ m' h FMax = m h FMax /\
  (forall j, (k <= j < k + c)%nat -> m' h (FLow j) = m h (FLow j) + amt /\ m' h (FHigh j) = m h (FHigh j) + amt) /\
  (forall j, ~ (k <= j < k + c)%nat -> m' h (FLow j) = m h (FLow j) /\ m' h (FHigh j) = m h (FHigh j)).
Proof.
  intros amt. induction c as [|c IH]; intros k m; cbn [p_ins alone].
  - exists m. split; [reflexivity|]. repeat split; intros; lia.
  - rewrite (put_field m h (FLow k)) by discriminate.
    destruct (IH (S k) (put (put m h (FLow k) (m h (FLow k) + amt)) h (FHigh k) (m h (FHigh k) + amt))) as (m' & E & A & B & C & D & F & G).
    exists m'. split; [exact E|]. rewrite B, C, D, !put_field by discriminate. split; [intros r f N; rewrite (A r f N), !put_other by exact N; reflexivity|].
    do 3 (split; [reflexivity|]). split; intros j L.
    + destruct (Nat.eq_dec j k) as [->|Q].
      * destruct (G k ltac:(lia)) as [G1 G2]. rewrite G1, G2, put_same, put_field, put_same by discriminate. auto.
      * destruct (F j ltac:(lia)) as [G1 G2]. rewrite G1, G2. rewrite !put_field; try discriminate; try (intro K; injection K as ->; congruence). auto.
    + destruct (G j ltac:(lia)) as [G1 G2]. rewrite G1, G2. rewrite !put_field; try discriminate; try (intro K; injection K as ->; lia). auto.
Qed.
Lemma alone_high : forall c k high m, alone m (p_high h k c high) = (m, fold_left (fun a b => if a <? b then b else a) (map (fun j => m h (FHigh j)) (seq k c)) high).
Proof.
  induction c as [|c IH]; intros k high m; cbn [p_high alone seq map fold_left]; [reflexivity|].
  destruct (high <? m h (FHigh k)); cbn [alone]; apply IH.
Qed.

Definition fits (m : memory) (n : nd V) (l r : tree V) : Prop :=
  (forall f, m h f = cell n f) /\
  (forall t x a b, t = l \/ t = r -> t = Node x a b -> n_ref x <> h /\ m (n_ref x) FMax = n_max x).

Lemma alone_child : forall m n l r t, fits m n l r -> t = l \/ t = r -> exists m', alone m (p_max_child h (ref_of t)) = (m', tt) /\ framed h m m' /\
  fits m' (set_max (max_with t (n_max n)) n) l r.
Proof.
  intros m n l r t [F1 F2] Ht. destruct t as [|x a b]; cbn [ref_of p_max_child alone max_with].
  - exists m. split; [reflexivity|]. split; [intros ? ? ?; reflexivity|]. destruct n; split; [exact F1|exact F2].
  - destruct (F2 _ x a b Ht eq_refl) as [N E]. rewrite E, (F1 FMax). cbn [cell]. eexists. split; [reflexivity|]. split; [intros y f Q; apply put_other; exact Q|]. split.
    + intro f. destruct f; [rewrite put_field by discriminate; apply F1|rewrite put_same; reflexivity| | |]; rewrite put_field by discriminate; apply F1.
    + intros t' x' a' b' Ht' E'. destruct (F2 t' x' a' b' Ht' E') as [N' E2]. split; [exact N'|]. rewrite put_other by exact N'. exact E2.
Qed.
Lemma fits_frame : forall m m' n n' l r, fits m n l r -> framed h m m' -> (forall f, m' h f = cell n' f) -> fits m' n' l r.
Proof. intros m m' n n' l r [F1 F2] Fr E. split; [exact E|]. intros t x a b Ht Et. destruct (F2 t x a b Ht Et) as [N Q]. split; [exact N|]. rewrite (Fr _ _ N). exact Q. Qed.

Lemma map_seq_nth : forall {A B} (g : nat -> B) (f : A -> B) l k, (forall j a, nth_error l j = Some a -> g (k + j)%nat = f a) -> map g (seq k (List.length l)) = map f l.
Proof.
  intros A B g f. induction l as [|a l IH]; intros k E; [reflexivity|]. cbn [List.length seq map]. f_equal.
  - rewrite <- (E 0%nat a eq_refl). f_equal. lia.
  - apply IH. intros j x N. rewrite <- (E (S j) x N). f_equal. lia.
Qed.
Lemma fold_map : forall {A B C} (f : A -> C -> A) (g : B -> C) l a, fold_left f (map g l) a = fold_left (fun a b => f a (g b)) l a.
Proof. intros A B C f g. induction l as [|b l IH]; intro a; [reflexivity|apply IH]. Qed.

Variable lk : links.
Lemma alone_update : forall m n l r, fits m n l r -> lk h = (ref_of l, ref_of r, List.length (n_ins n)) ->
  exists m', alone m (p_update_max lk h) = (m', tt) /\ framed h m m' /\ fits m' (update_max n l r) l r.
Proof.
  intros m n l r F L. unfold p_update_max. rewrite L. rewrite alone_bind. destruct (alone_child m n l r r F (or_intror eq_refl)) as (m1 & -> & A1 & F1). rewrite alone_bind.
  destruct (alone_child m1 _ l r l F1 (or_introl eq_refl)) as (m2 & -> & A2 & F2). cbn [alone]. rewrite alone_bind, alone_high. cbn [alone]. eexists. split; [reflexivity|].
  assert (framed h m2 (put m2 h FMax (Z.max (m2 h FMax) (fold_left (fun a b => if a <? b then b else a) (map (fun j => m2 h (FHigh j)) (seq 0 (List.length (n_ins n)))) 0)))) as Fr by (intros y f Q; apply put_other; exact Q).
  split; [intros y f Q; rewrite (Fr y f Q), (A2 y f Q); apply A1; exact Q|]. eapply fits_frame; [exact F2|exact Fr|]. destruct F2 as [F2 _].
  assert (fold_left (fun a b => if a <? b then b else a) (map (fun j => m2 h (FHigh j)) (seq 0 (List.length (n_ins n)))) 0 = ins_high (n_ins n)) as Eh.
  { unfold ins_high. rewrite (map_seq_nth _ (@iv_high V)); [apply fold_map|]. intros j a N. cbn [Nat.add]. rewrite F2. cbn. rewrite N. reflexivity. }
  rewrite Eh. intro f. destruct f; [rewrite put_field by discriminate; apply F2|rewrite put_same, F2; reflexivity| | |]; rewrite put_field by discriminate; apply F2.
Qed.

Lemma ins_shift_nth : forall amt (ins : list (ival V)) k, nth_error (ins_shift amt ins) k = match nth_error ins k with Some i => Some (Iv (iv_low i + amt) (iv_high i + amt) (iv_val i)) | None => None end.
Proof. intros. unfold ins_shift. apply nth_error_map. Qed.

Lemma alone_shift : forall s m n l r, fits m n l r -> lk h = (ref_of l, ref_of r, List.length (n_ins n)) ->
  exists m', alone m (p_shift lk h s) = (m', tt) /\ framed h m m' /\ fits m' (apply_shift s n l r) l r /\ List.length (n_ins (apply_shift s n l r)) = List.length (n_ins n).
Proof.
  intros s m n l r F L. pose proof (proj1 F) as F1. unfold p_shift, apply_shift. cbn [alone]. rewrite (F1 FTs). cbn [cell].
  destruct (Nat.leb_spec (sh_ts s) (n_ts n)) as [T|T]; [rewrite (proj2 (Z.leb_le _ _)) by lia|rewrite (proj2 (Z.leb_gt _ _)) by lia].
  - cbn [alone]. exists m. split; [reflexivity|]. split; [intros ? ? ?; reflexivity|]. auto.
  - cbn [alone]. cbv zeta. rewrite put_field by discriminate. rewrite (F1 FMax). cbn [cell]. cbn [n_max set_ts].
    set (m1 := put m h FTs (Z.of_nat (sh_ts s))). assert (framed h m m1) as A1 by (intros y f Q; apply put_other; exact Q).
    assert (fits m1 (set_ts (sh_ts s) n) l r) as G1. { eapply fits_frame; [exact F|exact A1|]. intro f. unfold m1. destruct f; try (rewrite put_field by discriminate; apply F1). rewrite put_same. reflexivity. }
    destruct (n_max n <? sh_idx s).
    + cbn [alone]. exists m1. split; [reflexivity|]. split; [exact A1|]. split; [exact G1|]. reflexivity.
    + cbn [alone]. replace (m1 h FMax) with (n_max n) by (symmetry; apply (proj1 G1 FMax)).
      set (m2 := put m1 h FMax (n_max n + sh_amt s)). assert (framed h m m2) as A2 by (intros y f Q; unfold m2; rewrite put_other by exact Q; apply A1; exact Q).
      set (n2 := set_max (n_max n + sh_amt s) (set_ts (sh_ts s) n)).
      assert (fits m2 n2 l r) as G2. { eapply fits_frame; [exact F|exact A2|]. intro f. unfold m2. destruct f; try (rewrite put_field by discriminate; apply (proj1 G1)). rewrite put_same. reflexivity. }
      rewrite (proj1 G2 FPos). cbn [cell]. change (n_pos n2) with (n_pos n). destruct (sh_idx s <=? n_pos n).
      * cbn [alone]. rewrite (proj1 G2 FPos). cbn [cell]. change (n_pos n2) with (n_pos n). rewrite alone_bind. rewrite L. cbn [snd].
        set (m3 := put m2 h FPos (n_pos n + sh_amt s)). destruct (alone_ins (sh_amt s) (List.length (n_ins n)) 0 m3) as (m4 & -> & A4 & P1 & P2 & P3 & P4 & P5).
        set (n4 := set_ins (ins_shift (sh_amt s) (n_ins n2)) (set_key (n_pos n + sh_amt s) (n_id n2) n2)).
        assert (framed h m m4) as A5. { intros y f Q. rewrite (A4 y f Q). unfold m3. rewrite put_other by exact Q. apply A2. exact Q. }
        assert (fits m4 n4 l r) as G4.
        { eapply fits_frame; [exact F|exact A5|]. intro f. unfold m3 in *. destruct f as [| | |k|k].
          - rewrite P1, put_same. reflexivity.
          - rewrite P3, put_field by discriminate. apply (proj1 G2 FMax).
          - rewrite P2, put_field by discriminate. apply (proj1 G2 FTs).
          - cbn [cell n4 n_ins set_ins]. rewrite ins_shift_nth. change (n_ins n2) with (n_ins n). destruct (nth_error (n_ins n) k) as [i|] eqn:N.
            + assert (k < List.length (n_ins n))%nat by (apply nth_error_Some; congruence). destruct (P4 k ltac:(lia)) as [-> _]. rewrite put_field by discriminate. rewrite (proj1 G2). cbn. rewrite N. reflexivity.
            + apply nth_error_None in N. destruct (P5 k ltac:(lia)) as [-> _]. rewrite put_field by discriminate. rewrite (proj1 G2). cbn. apply nth_error_None in N. rewrite N. reflexivity.
          - cbn [cell n4 n_ins set_ins]. rewrite ins_shift_nth. change (n_ins n2) with (n_ins n). destruct (nth_error (n_ins n) k) as [i|] eqn:N.
            + assert (k < List.length (n_ins n))%nat by (apply nth_error_Some; congruence). destruct (P4 k ltac:(lia)) as [_ ->]. rewrite put_field by discriminate. rewrite (proj1 G2). cbn. rewrite N. reflexivity.
            + apply nth_error_None in N. destruct (P5 k ltac:(lia)) as [_ ->]. rewrite put_field by discriminate. rewrite (proj1 G2). cbn. apply nth_error_None in N. rewrite N. reflexivity. }
        assert (List.length (n_ins n4) = List.length (n_ins n)) as Ln by (cbn; unfold ins_shift; apply map_length).
        destruct (alone_update m4 n4 l r G4) as (m5 & E5 & A6 & G5); [rewrite Ln; exact L|]. exists m5. split; [exact E5|].
        split; [intros y f Q; rewrite (A6 y f Q); apply A5; exact Q|]. split; [exact G5|exact Ln].
      * destruct (alone_update m2 n2 l r G2) as (m5 & E5 & A6 & G5); [exact L|]. exists m5. split; [exact E5|].
        split; [intros y f Q; rewrite (A6 y f Q); apply A2; exact Q|]. split; [exact G5|reflexivity].
Qed.
Lemma alone_loop : forall ss m n l r, fits m n l r -> lk h = (ref_of l, ref_of r, List.length (n_ins n)) ->
  exists m', alone m (p_loop lk h ss) = (m', tt) /\ framed h m m' /\ fits m' (fold_left (fun n s => apply_shift s n l r) ss n) l r /\
  List.length (n_ins (fold_left (fun n s => apply_shift s n l r) ss n)) = List.length (n_ins n).
Proof.
  induction ss as [|s ss IH]; intros m n l r F L; cbn [p_loop fold_left].
  - exists m. split; [reflexivity|]. split; [intros ? ? ?; reflexivity|]. auto.
  - rewrite alone_bind. destruct (alone_shift s m n l r F L) as (m1 & -> & A & G & N). destruct (IH m1 (apply_shift s n l r) l r G) as (m2 & E & A2 & G2 & N2); [rewrite N; exact L|].
    exists m2. split; [exact E|]. split; [intros y f Q; rewrite (A2 y f Q); apply A; exact Q|]. split; [exact G2|congruence].
Qed.
Lemma alone_start : forall shs (n : nd V) m j, m h FTs = Z.of_nat (n_ts n) -> alone m (p_start shs h j) = (m, shift_start (n_ts n) shs j).
Proof.
  intros shs n m j E. induction j as [|j IH]; cbn [p_start alone shift_start]; [reflexivity|]. rewrite E. destruct (nth_error shs (S j)) as [s|]; [|exact IH].
  destruct (Nat.leb_spec (sh_ts s) (n_ts n)) as [T|T]; [rewrite (proj2 (Z.leb_le _ _)) by lia; reflexivity|rewrite (proj2 (Z.leb_gt _ _)) by lia; exact IH].
Qed.
Lemma alone_shifts : forall shs m n l r, fits m n l r -> lk h = (ref_of l, ref_of r, List.length (n_ins n)) ->
  exists m', alone m (p_shifts lk shs h) = (m', tt) /\ framed h m m' /\ fits m' (apply_shifts shs n l r) l r /\ List.length (n_ins (apply_shifts shs n l r)) = List.length (n_ins n).
Proof.
  intros shs m n l r F L. unfold p_shifts, apply_shifts. destruct (rev shs) as [|s ss].
  - exists m. split; [reflexivity|]. split; [intros ? ? ?; reflexivity|]. auto.
  - cbn [alone]. rewrite (proj1 F FTs). cbn [cell]. destruct (Nat.leb_spec (sh_ts s) (n_ts n)) as [T|T]; [rewrite (proj2 (Z.leb_le _ _)) by lia|rewrite (proj2 (Z.leb_gt _ _)) by lia].
    + exists m. split; [reflexivity|]. split; [intros ? ? ?; reflexivity|]. auto.
    + rewrite alone_bind, (alone_start shs n) by apply (proj1 F FTs). apply alone_loop; assumption.
Qed.
End Alone.

Section Tree.
Context {V : Type}.
Lemma sub_ref : forall h (t : tree V) n l r, sub_at h t = Some (n, l, r) -> n_ref n = h.
Proof.
  intros h. induction t as [|m a IHa b IHb]; intros n l r S; cbn [sub_at] in S; [discriminate|]. destruct (Nat.eqb_spec (n_ref m) h) as [Q|Q]; [congruence|].
  destruct (sub_at h a) as [x|]; [injection S as ->; eapply IHa; reflexivity|eapply IHb; exact S].
Qed.
Fixpoint all_refs (t : tree V) : list nat := match t with Leaf => [] | Node n l r => all_refs l ++ n_ref n :: all_refs r end.
Lemma all_refs_refs : forall shs (t : tree V), refs shs t = all_refs t.
Proof.
  intros shs. unfold refs. induction t as [|n l IHl r IHr]; [reflexivity|]. cbn [views all_refs]. rewrite map_app. cbn [map]. rewrite IHl, IHr.
  change (v_ref (view (apply_shifts shs n l r))) with (n_ref (apply_shifts shs n l r)). rewrite apply_shifts_ref. reflexivity.
Qed.
Lemma sub_in : forall h (t : tree V), sub_at h t = None <-> ~ In h (all_refs t).
Proof.
  intros h. induction t as [|n l IHl r IHr]; [split; [intros _ []|reflexivity]|]. cbn [sub_at all_refs]. rewrite in_app_iff. cbn [In]. destruct (Nat.eqb_spec (n_ref n) h) as [Q|Q].
  - split; [discriminate|]. tauto.
  - destruct (sub_at h l) as [x|] eqn:E; [split; [discriminate|]; intro K; exfalso; assert (@None (nd V * tree V * tree V) = None -> False) by (intro; assert (Some x = None) by (apply IHl; tauto); discriminate); auto|].
    rewrite IHr. assert (~ In h (all_refs l)) by (apply IHl; reflexivity). tauto.
Qed.
(** the children of a node are other nodes, and are found *)
Lemma sub_child : forall h (t : tree V) n l r, NoDup (all_refs t) -> sub_at h t = Some (n, l, r) -> forall s x a b, s = l \/ s = r -> s = Node x a b ->
  n_ref x <> h /\ sub_at (n_ref x) t = Some (x, a, b).
Proof.
  intros h. induction t as [|m u IHu v IHv]; intros n l r D S s x a b Hs Es; cbn [sub_at] in S; [discriminate|]. cbn [all_refs] in D.
  pose proof (NoDup_remove_1 _ _ _ D) as D1. pose proof (NoDup_remove_2 _ _ _ D) as D2. rewrite in_app_iff in D2.
  assert (NoDup (all_refs u)) as Du by (eapply nodup_left; exact D1).
  assert (NoDup (all_refs v)) as Dv. { clear - D1. induction (all_refs u) as [|y l IH]; [exact D1|]. inversion D1; subst. auto. }
  assert (forall y, In y (all_refs u) -> In y (all_refs v) -> False) as Dis. { clear - D1. intros y A B. induction (all_refs u) as [|z l IH]; [destruct A|]. inversion D1; subst. destruct A as [->|A]; [apply H1; apply in_or_app; auto|auto]. }
  assert (forall z n l r, sub_at z u = Some (n, l, r) -> In z (all_refs u)) as Iu. { intros z n' l' r' Z. destruct (in_dec Nat.eq_dec z (all_refs u)) as [K|K]; [exact K|]. apply sub_in in K. congruence. }
  assert (forall z n l r, sub_at z v = Some (n, l, r) -> In z (all_refs v)) as Iv. { intros z n' l' r' Z. destruct (in_dec Nat.eq_dec z (all_refs v)) as [K|K]; [exact K|]. apply sub_in in K. congruence. }
  cbn [sub_at]. destruct (Nat.eqb_spec (n_ref m) h) as [Q|Q].
  - injection S as <- <- <-. destruct Hs as [-> | ->]; subst.
    + assert (In (n_ref x) (all_refs (Node x a b))) as In1 by (cbn; apply in_or_app; right; left; reflexivity).
      split; [intro K; apply D2; left; rewrite <- K; exact In1|]. destruct (Nat.eqb_spec (n_ref m) (n_ref x)) as [K|K]; [exfalso; apply D2; left; rewrite K; exact In1|].
      cbn [sub_at]. rewrite Nat.eqb_refl. reflexivity.
    + assert (In (n_ref x) (all_refs (Node x a b))) as In1 by (cbn; apply in_or_app; right; left; reflexivity).
      split; [intro K; apply D2; right; rewrite <- K; exact In1|]. destruct (Nat.eqb_spec (n_ref m) (n_ref x)) as [K|K]; [exfalso; apply D2; right; rewrite K; exact In1|].
      destruct (sub_at (n_ref x) u) as [[[n' l'] r']|] eqn:E; [exfalso; eapply Dis; [eapply Iu; exact E|exact In1]|]. cbn [sub_at]. rewrite Nat.eqb_refl. reflexivity.
  - destruct (sub_at h u) as [y|] eqn:Eu.
    + injection S as ->. destruct (IHu n l r Du eq_refl s x a b Hs Es) as [K1 K2]. split; [exact K1|]. destruct (Nat.eqb_spec (n_ref m) (n_ref x)) as [K|K].
      * exfalso. apply D2. left. rewrite K. eapply Iu. exact K2.
      * rewrite K2. reflexivity.
    + destruct (IHv n l r Dv S s x a b Hs Es) as [K1 K2]. split; [exact K1|]. destruct (Nat.eqb_spec (n_ref m) (n_ref x)) as [K|K].
      * exfalso. apply D2. right. rewrite K. eapply Iv. exact K2.
      * destruct (sub_at (n_ref x) u) as [[[n' l'] r']|] eqn:E; [exfalso; eapply Dis; [eapply Iu; exact E|eapply Iv; exact K2]|exact K2].
Qed.
Lemma touch_refs : forall shs h (t : tree V), ref_of (fst (touch shs h t)) = ref_of t.
Proof.
  intros shs h [|n l r]; [reflexivity|]. cbn [touch]. destruct (_ =? _)%nat; [cbn; f_equal; apply apply_shifts_ref|]. destruct (touch shs h l) as [l2 [p|]]; [reflexivity|].
  destruct (touch shs h r) as [r2 o]. reflexivity.
Qed.
Lemma touch_links : forall shs h' h (t : tree V), (forall n l r, sub_at h' t = Some (n, l, r) -> List.length (n_ins (apply_shifts shs n l r)) = List.length (n_ins n)) ->
  links_of (fst (touch shs h' t)) h = links_of t h.
Proof.
  intros shs h' h t. unfold links_of. induction t as [|n l IHl r IHr]; intro K; [reflexivity|]. cbn [sub_at touch] in *. destruct (Nat.eqb_spec (n_ref n) h') as [Q|Q].
  - cbn [fst sub_at]. rewrite apply_shifts_ref. destruct (n_ref n =? h)%nat; [|reflexivity]. rewrite (K n l r eq_refl). reflexivity.
  - pose proof (touch_refs shs h' l) as Rl. pose proof (touch_refs shs h' r) as Rr. pose proof (touch_sub shs h' h l) as Tl. pose proof (touch_sub shs h' h r) as Tr.
    pose proof (touch_answer shs h' l) as Al.
    destruct (touch shs h' l) as [l2 [p|]]; [|destruct (touch shs h' r) as [r2 o]]; cbn [fst snd sub_at] in *.
    + destruct (n_ref n =? h)%nat; [rewrite Rl; reflexivity|]. destruct (sub_at h' l) as [[[n1 l1] r1]|] eqn:E; [|discriminate].
      specialize (IHl (fun n l r E => K n l r E)). destruct (sub_at h l) as [[[n2 l3] r3]|]; [destruct Tl as (l' & r' & Tl)|]; rewrite Tl in *; [exact IHl|reflexivity].
    + destruct (n_ref n =? h)%nat; [rewrite Rl, Rr; reflexivity|]. destruct (sub_at h' l) as [[[n1 l1] r1]|] eqn:E; [discriminate|].
      specialize (IHl ltac:(discriminate)). specialize (IHr K). destruct (sub_at h l) as [[[n2 l3] r3]|]; [destruct Tl as (l' & r' & Tl)|]; rewrite Tl in *; [exact IHl|exact IHr].
Qed.
Theorem alone_right : forall (tr : list (iop V)) t h, calm tr -> it_run tr = Some t -> snd (it_pos t h) <> None ->
  let (m, p) := alone (memory_of (t_root t)) (p_pos (links_of (t_root t)) (t_shifts t) h) in
  snd (it_pos t h) = Some p /\
  (forall r f, m r f = memory_of (t_root (fst (it_pos t h))) r f) /\ (forall r, links_of (t_root (fst (it_pos t h))) r = links_of (t_root t) r).
Proof.
  intros tr t h C R N. destruct (run_spec tr C) as (t' & R' & (W & _ & I & D & _) & _). rewrite R in R'. injection R' as <-. rewrite all_refs_refs in D.
  destruct (it_pos_parts t h) as (P1 & P2 & P3). rewrite P3, touch_answer in N |- *. rewrite P1. destruct (sub_at h (t_root t)) as [[[n l] r]|] eqn:S; [|congruence].
  assert (fits h (memory_of (t_root t)) n l r) as F.
  { split; [intro f; unfold memory_of; rewrite S; reflexivity|]. intros s x a b Hs Es. destruct (sub_child h _ n l r D S s x a b Hs Es) as [K1 K2]. split; [exact K1|]. unfold memory_of. rewrite K2. reflexivity. }
  destruct (alone_shifts h (links_of (t_root t)) (t_shifts t) _ n l r F) as (m & E & A & G & L); [unfold links_of; rewrite S; reflexivity|].
  unfold p_pos. rewrite alone_bind, E. cbn [alone]. rewrite (proj1 G FPos). cbn [cell]. split; [reflexivity|]. split.
  - intros y f. unfold memory_of at 1. pose proof (touch_sub (t_shifts t) h y (t_root t)) as T. destruct (Nat.eq_dec y h) as [->|Q].
    + rewrite S in T. destruct T as (l' & r' & ->). rewrite Nat.eqb_refl. apply (proj1 G).
    + rewrite (A y f Q). unfold memory_of. rewrite (proj2 (Nat.eqb_neq _ _) Q) in T. destruct (sub_at y (t_root t)) as [[[n' l1] r1]|]; [destruct T as (l' & r' & ->); reflexivity|rewrite T; reflexivity].
  - intro y. apply touch_links. intros n' l' r' S'. rewrite S in S'. injection S' as <- <- <-. exact L.
Qed.
End Tree.

Section Stands.
Context {V : Type}.
Lemma views_sub : forall shs (t : tree V) x, inv shs t -> NoDup (all_refs t) -> In x (views shs t) -> v_ins x <> [] ->
  exists n l r, sub_at (v_ref x) t = Some (n, l, r) /\ n_ins n <> [].
Proof.
  intros shs t x I D Hx N. induction t as [|m u IHu w IHw]; [destruct Hx|]. cbn [views] in Hx. cbn [all_refs] in D. destruct I as (_ & _ & _ & _ & _ & _ & _ & _ & Iu & Iw).
  pose proof (NoDup_remove_1 _ _ _ D) as D1. pose proof (NoDup_remove_2 _ _ _ D) as D2. rewrite in_app_iff in D2.
  assert (NoDup (all_refs u)) as Du by (eapply nodup_left; exact D1).
  assert (NoDup (all_refs w)) as Dw. { clear - D1. induction (all_refs u) as [|y l IH]; [exact D1|]. inversion D1; subst. auto. }
  assert (forall y, In y (all_refs u) -> In y (all_refs w) -> False) as Dis. { clear - D1. intros y A B. induction (all_refs u) as [|z l IH]; [destruct A|]. inversion D1; subst. destruct A as [->|A]; [apply H1; apply in_or_app; auto|auto]. }
  assert (forall s, In x (views shs s) -> In (v_ref x) (all_refs s)) as R by (intros s Hs; rewrite <- (all_refs_refs shs); unfold refs; apply in_map; exact Hs).
  apply in_app_or in Hx. cbn [sub_at]. destruct Hx as [Hx|[<-|Hx]].
  - destruct (Nat.eqb_spec (n_ref m) (v_ref x)) as [Q|Q]; [exfalso; apply D2; left; rewrite Q; apply R; exact Hx|].
    destruct (IHu Iu Du Hx) as (n & l & r & E & K). rewrite E. eauto.
  - change (v_ref (view (apply_shifts shs m u w))) with (n_ref (apply_shifts shs m u w)). rewrite apply_shifts_ref, Nat.eqb_refl.
    exists m, u, w. split; [reflexivity|]. intro K. apply N. cbn. apply apply_ins. exact K.
  - destruct (Nat.eqb_spec (n_ref m) (v_ref x)) as [Q|Q]; [exfalso; apply D2; right; rewrite Q; apply R; exact Hx|].
    destruct (sub_at (v_ref x) u) as [[[n' l'] r']|] eqn:E; [exfalso|apply IHw; assumption].
    apply (Dis (v_ref x)); [|apply R; exact Hx]. destruct (in_dec Nat.eq_dec (v_ref x) (all_refs u)) as [K|K]; [exact K|]. apply sub_in in K. congruence.
Qed.
Lemma stands_value : forall (tr : list (iop V)) t h p, calm tr -> it_run tr = Some t -> stands tr t h p -> holds_value t h /\ snd (it_pos t h) = Some p.
Proof.
  intros tr t h p C R (a & id & low & high & v & b & ta & E & Na & Nb & Ra & -> & Hv & ->). subst tr. split; [|eapply p_handle; eassumption].
  destruct (run_spec _ C) as (t0 & R0 & T & _ & _ & Q). rewrite R in R0. injection R0 as <-.
  destruct (value_entry t v Hv) as (e & A & B). pose proof (Q e A) as K. destruct e as [[[[r i] l] hh] vv]. cbn in B. subst vv.
  destruct K as (a' & low' & high' & b' & ta' & X1 & X2 & X3 & X4 & X5 & X6).
  assert (Y : a = a' /\ OAdd id low high v = OAdd i low' high' v /\ b = b').
  { clear -X1 Na Nb. revert a' X1. induction a as [|o a IH]; intros [|o' a'] X1; cbn in *.
    - injection X1 as <- <- <- <-. auto.
    - injection X1 as <- X1. exfalso. apply Nb. rewrite X1. unfold added. rewrite flat_map_app. apply in_or_app. right. left. reflexivity.
    - injection X1 as -> X1. exfalso. apply Na. left. reflexivity.
    - injection X1 as <- X1. destruct (IH) with (a' := a') as (-> & Y & Z); auto. intros K. apply Na. unfold added in *. cbn. apply in_or_app. right. exact K. }
  destruct Y as (<- & Y & <-). injection Y as <- <- <-. rewrite Ra in X2. injection X2 as <-. rewrite X3.
  destruct T as (W & _ & I & D & _). rewrite all_refs_refs in D. apply ents_in in A. destruct A as (x & j & A1 & A2 & A3). injection A3 as -> _ _ _ _.
  unfold holds_value. eapply views_sub; [exact I|exact D|exact A1|]. intro K. rewrite K in A2. destruct A2.
Qed.
Theorem apart_right : forall (tr : list (iop V)) t (hss : list (list (nat * Z))) sched, calm tr -> it_run tr = Some t ->
  Forall (Forall (fun '(h, p) => stands tr t h p)) hss -> apart hss ->
  forall i l ans, nth_error hss i = Some l -> nth_error (snd (race t (map (map fst) hss) sched)) i = Some (Ret ans) -> ans = map snd l.
Proof.
  intros tr t hss sched C R F D i l ans N Np.
  assert (forall x h p, In x hss -> In (h, p) x -> holds_value t h /\ snd (it_pos t h) = Some p) as K.
  { intros x h p Hx Hh. rewrite Forall_forall in F. specialize (F x Hx). rewrite Forall_forall in F. apply (stands_value tr); auto. exact (F (h, p) Hh). }
  pose proof (separate_right tr t (map (map fst) hss) sched C R) as S.
  assert (map Some ans = map (fun h => snd (it_pos t h)) (map fst l)) as E.
  { refine (S _ _ i (map fst l) ans _ Np).
    - apply Forall_map. rewrite Forall_forall. intros x Hx. apply Forall_map. rewrite Forall_forall. intros [h p] Hh. exact (proj1 (K x h p Hx Hh)).
    - intros i1 j1 x y h Q Hx Hy Ix Iy. rewrite nth_error_map in Hx, Hy. destruct (nth_error hss i1) as [x1|] eqn:E1; [|discriminate]. destruct (nth_error hss j1) as [y1|] eqn:E2; [|discriminate].
      injection Hx as <-. injection Hy as <-. apply in_map_iff in Ix, Iy. destruct Ix as ([h1 p1] & <- & Ix). destruct Iy as ([h2 p2] & Eh & Iy). cbn in Eh. subst h2. eapply D; eassumption.
    - rewrite nth_error_map, N. reflexivity. }
  assert (map (fun h => snd (it_pos t h)) (map fst l) = map Some (map snd l)) as E'.
  { rewrite !map_map. apply map_ext_in. intros [h p] Hh. cbn. apply (K l); [eapply nth_error_In; exact N|exact Hh]. }
  rewrite E' in E. clear - E. revert E. generalize (map snd l). induction ans as [|a ans IH]; intros [|b l'] E; try discriminate; [reflexivity|]. cbn in E. injection E as -> E. f_equal. apply IH. exact E.
Qed.
Lemma asked_run : forall hs (tr : list (iop V)) t, it_run tr = Some t -> it_run (tr ++ map OPos hs) = Some (asked t hs).
Proof.
  induction hs as [|h hs IH]; intros tr t R; cbn [map]; [rewrite app_nil_r; exact R|].
  change (OPos h :: map OPos hs) with ([@OPos V h] ++ map OPos hs). rewrite app_assoc. unfold asked. cbn [fold_left]. apply IH. rewrite it_run_snoc, R. reflexivity.
Qed.
Lemma run_prefix : forall (b a : list (iop V)) t, it_run (a ++ b) = Some t -> exists ta, it_run a = Some ta.
Proof.
  induction b as [|o b IH] using rev_ind; intros a t R; [rewrite app_nil_r in R; eauto|]. rewrite app_assoc, it_run_snoc in R. destruct (it_run (a ++ b)) as [t'|] eqn:E; [eapply IH; exact E|discriminate].
Qed.
Theorem asked_right : forall (tr : list (iop V)) hs t hss sched m ps, it_run (tr ++ map OPos hs) = Some t ->
  Forall (fun h => snd (it_pos t h) <> None) hs -> Forall (fun l => incl l hs) hss -> race t hss sched = (m, ps) ->
  m = memory_of (t_root t) /\
  forall i l ans, nth_error hss i = Some l -> nth_error ps i = Some (Ret ans) -> map Some ans = map (fun h => snd (it_pos t h)) l.
Proof.
  intros tr hs t hss sched m ps R F G Rc. destruct (run_prefix _ _ _ R) as (t0 & R0). pose proof (asked_run hs tr t0 R0) as E. rewrite R in E. injection E as ->.
  eapply quiet_right; [|exact G|exact Rc]. eapply Forall_impl; [|exact F]. cbn beta. intros h K. rewrite (proj2 (proj2 (it_pos_parts t0 h))), touch_answer. rewrite (proj2 (proj2 (it_pos_parts (asked t0 hs) h))), touch_answer in K.
  destruct (sub_at h (t_root t0)) as [[[n l] r]|] eqn:E; [discriminate|]. rewrite (asked_none hs t0 h E) in K. congruence.
Qed.
End Stands.
