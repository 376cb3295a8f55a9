From Verif Require Import Base Model_Charset.
Local Open Scope N_scope.

Lemma bit64_pow : forall n, n < 64 -> bit64 n = 2 ^ n.
Proof.
  intros n H. unfold bit64. rewrite N.shiftl_1_l. apply N.mod_small.
  apply N.pow_lt_mono_r; lia.
Qed.

Lemma land_bit : forall w n, n < 64 -> negb (N.land w (bit64 n) =? 0) = N.testbit w n.
Proof.
  intros w n H. rewrite bit64_pow by assumption.
  destruct (N.testbit w n) eqn:E.
  - apply negb_true_iff. apply N.eqb_neq. intro Z.
    assert (N.testbit (N.land w (2 ^ n)) n = false) by (rewrite Z; apply N.bits_0).
    rewrite N.land_spec, E, N.pow2_bits_true in H0. discriminate.
  - apply negb_false_iff. apply N.eqb_eq. apply N.bits_inj_0. intro k.
    rewrite N.land_spec. destruct (N.eq_dec n k) as [->|Hn].
    + rewrite E. reflexivity.
    + rewrite N.pow2_bits_false by assumption. apply andb_false_r.
Qed.

Lemma and63 : forall r, N.land r 63 = r mod 64.
Proof. intro r. change 63 with (N.ones 6). rewrite N.land_ones. reflexivity. Qed.

Lemma shr6 : forall r, N.shiftr r 6 = r / 64.
Proof. intro r. rewrite N.shiftr_div_pow2. reflexivity. Qed.

Definition has_bit (c : cset) (r : N) : bool := N.testbit (cs_word c (r / 64)) (r mod 64).

Lemma cs_has_bit : forall c r, cs_has c r = has_bit c (bN r).
Proof.
  intros c r. unfold cs_has, has_bit. rewrite and63, shr6. apply land_bit.
  apply N.mod_lt. lia.
Qed.

Lemma div64_cases : forall r, r < 256 ->
  (r < 64 /\ r / 64 = 0 /\ r mod 64 = r) \/
  (64 <= r < 128 /\ r / 64 = 1 /\ r mod 64 = r - 64) \/
  (128 <= r < 192 /\ r / 64 = 2 /\ r mod 64 = r - 128) \/
  (192 <= r < 256 /\ r / 64 = 3 /\ r mod 64 = r - 192).
Proof.
  intros r H.
  assert (D : r = 64 * (r / 64) + r mod 64) by (apply N.div_mod; lia).
  assert (M : r mod 64 < 64) by (apply N.mod_lt; lia).
  assert (r / 64 < 4) by (apply N.div_lt_upper_bound; lia).
  assert (C : r / 64 = 0 \/ r / 64 = 1 \/ r / 64 = 2 \/ r / 64 = 3) by lia.
  generalize dependent (r mod 64). generalize dependent (r / 64). intros q m D M H0 C. lia.
Qed.

Lemma lor_bit_spec : forall w n k, n < 64 -> N.testbit (N.lor w (bit64 n)) k = N.testbit w k || (n =? k).
Proof.
  intros w n k H. rewrite N.lor_spec, bit64_pow by assumption. f_equal. apply N.pow2_bits_eqb.
Qed.

Lemma setbit_has : forall c r k, r < 256 -> k < 256 ->
  has_bit (cs_setbit c r) k = has_bit c k || (r =? k).
Proof.
  intros c r k Hr Hk. unfold has_bit, cs_setbit.
  destruct (div64_cases k Hk) as [[A [B C]]|[[A [B C]]|[[A [B C]]|[A [B C]]]]]; rewrite B, C;
  repeat match goal with |- context[if ?x <? ?y then _ else _] => destruct (N.ltb_spec x y) end;
  unfold cs_word; simpl cw0; simpl cw1; simpl cw2; simpl cw3; cbn [N.eqb Pos.eqb];
  try rewrite lor_bit_spec by lia;
  destruct (N.eqb_spec r k); subst; try lia;
  rewrite ?orb_false_r; try reflexivity;
  f_equal; try (apply N.eqb_eq; lia); try (apply N.eqb_neq; lia);
  match goal with |- _ || (?a =? ?b) = _ => destruct (N.eqb_spec a b); try lia; rewrite ?orb_false_r; auto end.
Qed.

Lemma bit64_lt : forall n, bit64 n < 2 ^ 64.
Proof. intro n. apply N.mod_lt. discriminate. Qed.

Lemma lt_bits : forall w n, w < 2 ^ n <-> (forall k, n <= k -> N.testbit w k = false).
Proof.
  intros w n. split.
  - intros H k Hk. destruct (N.eq_dec w 0) as [->|Hz]; [apply N.bits_0|].
    apply N.bits_above_log2. apply N.log2_lt_pow2 in H; lia.
  - intros H. destruct (N.eq_dec w 0) as [->|Hz].
    + assert (2 ^ n <> 0) by (apply N.pow_nonzero; lia). lia.
    + destruct (N.lt_ge_cases w (2 ^ n)) as [L|L]; auto. exfalso.
      assert (n <= N.log2 w) by (apply N.log2_le_pow2; lia).
      specialize (H _ H0). rewrite N.bit_log2 in H by assumption. discriminate.
Qed.

Lemma lor_lt : forall a b, a < 2 ^ 64 -> b < 2 ^ 64 -> N.lor a b < 2 ^ 64.
Proof.
  intros a b Ha Hb. apply lt_bits. intros k Hk. rewrite N.lor_spec.
  rewrite (proj1 (lt_bits a 64) Ha k Hk), (proj1 (lt_bits b 64) Hb k Hk). reflexivity.
Qed.

Lemma not64_bit : forall w k, N.testbit (not64 w) k = xorb (N.testbit w k) (k <? 64).
Proof.
  intros w k. unfold not64. rewrite N.lxor_spec. f_equal.
  change (2 ^ 64 - 1) with (N.ones 64).
  destruct (N.ltb_spec k 64).
  - apply N.ones_spec_low. assumption.
  - apply N.ones_spec_high. assumption.
Qed.

Lemma not64_lt : forall w, w < 2 ^ 64 -> not64 w < 2 ^ 64.
Proof.
  intros w H. apply lt_bits. intros k Hk. rewrite not64_bit.
  rewrite (proj1 (lt_bits w 64) H k Hk). destruct (N.ltb_spec k 64); [lia|reflexivity].
Qed.

Lemma land_lt_r : forall a b, b < 2 ^ 64 -> N.land a b < 2 ^ 64.
Proof.
  intros a b H. apply lt_bits. intros k Hk. rewrite N.land_spec.
  rewrite (proj1 (lt_bits b 64) H k Hk). apply andb_false_r.
Qed.

Lemma wf_zero : cs_wf cs_zero.
Proof. repeat split; reflexivity. Qed.

Lemma wf_setbit : forall c r, cs_wf c -> cs_wf (cs_setbit c r).
Proof.
  intros c r [A [B [C D]]]. unfold cs_setbit.
  repeat match goal with |- context[if ?x then _ else _] => destruct x end;
  repeat split; cbn [cw0 cw1 cw2 cw3]; auto; apply lor_lt; auto; apply bit64_lt.
Qed.

Lemma wf_fold : forall {A} (f : A -> N) l c, cs_wf c -> cs_wf (fold_left (fun c r => cs_setbit c (f r)) l c).
Proof. intros A f l. induction l; intros c H; simpl; auto. apply IHl, wf_setbit, H. Qed.

Lemma cs_new_wf : forall l, cs_wf (cs_new l).
Proof. intro l. apply wf_fold, wf_zero. Qed.

Lemma cs_range_wf : forall a b, cs_wf (cs_range a b).
Proof. intros a b. apply wf_fold, wf_zero. Qed.

Lemma cs_compl_wf : forall c, cs_wf c -> cs_wf (cs_compl c).
Proof. intros c [A [B [C D]]]. repeat split; apply not64_lt; assumption. Qed.

Lemma cs_add_wf : forall c d, cs_wf c -> cs_wf d -> cs_wf (cs_add c d).
Proof. intros c d [A [B [C D]]] [A' [B' [C' D']]]. repeat split; apply lor_lt; assumption. Qed.

Lemma cs_sub_wf : forall c d, cs_wf c -> cs_wf d -> cs_wf (cs_sub c d).
Proof. intros c d [A [B [C D]]] [A' [B' [C' D']]]. repeat split; apply land_lt_r; assumption. Qed.

Lemma has_bit_zero : forall k, has_bit cs_zero k = false.
Proof.
  intro k. unfold has_bit, cs_word.
  repeat match goal with |- context[if ?x then _ else _] => destruct x end; apply N.bits_0.
Qed.

Lemma fold_has : forall {A} (f : A -> N) l c k, (forall x, In x l -> f x < 256) -> k < 256 ->
  has_bit (fold_left (fun c r => cs_setbit c (f r)) l c) k = has_bit c k || existsb (fun x => f x =? k) l.
Proof.
  intros A f l. induction l; intros c k Hl Hk; simpl.
  - rewrite orb_false_r. reflexivity.
  - rewrite IHl; auto. 2:{ intros; apply Hl; right; assumption. }
    rewrite setbit_has; auto. 2:{ apply Hl. left. reflexivity. }
    rewrite orb_assoc. reflexivity.
Qed.

Lemma cs_new_has : forall l b, cs_has (cs_new l) b = existsb (byte_eqb b) l.
Proof.
  intros l b. rewrite cs_has_bit. unfold cs_new. rewrite fold_has.
  - rewrite has_bit_zero. simpl. induction l; simpl; auto. rewrite IHl. f_equal.
    destruct (byte_eqb b a) eqn:E.
    + apply byte_eqb_eq in E. subst. apply N.eqb_refl.
    + apply N.eqb_neq. intro H. apply bN_inj in H. subst. rewrite byte_eqb_refl in E. discriminate.
  - intros. apply bN_lt.
  - apply bN_lt.
Qed.

Lemma cs_range_has : forall lo hi b, cs_has (cs_range lo hi) b = (bN lo <=? bN b) && (bN b <=? bN hi).
Proof.
  intros lo hi b. rewrite cs_has_bit. unfold cs_range.
  pose proof (bN_lt lo). pose proof (bN_lt hi). pose proof (bN_lt b).
  rewrite fold_has; auto.
  - rewrite has_bit_zero. rewrite orb_false_l.
    destruct ((bN lo <=? bN b) && (bN b <=? bN hi)) eqn:E.
    + apply andb_true_iff in E. destruct E as [E1 E2]. apply N.leb_le in E1, E2.
      apply existsb_exists. exists (N.to_nat (bN b)). split.
      * apply in_seq. lia.
      * apply N.eqb_eq. apply N2Nat.id.
    + apply not_true_is_false. intro X. apply existsb_exists in X. destruct X as [x [X1 X2]].
      apply in_seq in X1. apply N.eqb_eq in X2.
      assert (bN lo <= bN b /\ bN b <= bN hi) as [P Q] by lia.
      apply N.leb_le in P, Q. rewrite P, Q in E. discriminate.
  - intros x Hx. apply in_seq in Hx. lia.
Qed.

Lemma cs_compl_has : forall c b, cs_has (cs_compl c) b = negb (cs_has c b).
Proof.
  intros c b. rewrite !cs_has_bit. unfold has_bit.
  pose proof (bN_lt b) as H.
  assert (M : bN b mod 64 < 64) by (apply N.mod_lt; lia).
  unfold cs_word, cs_compl; cbn [cw0 cw1 cw2 cw3].
  repeat match goal with |- context[if ?x then _ else _] => destruct x end;
  rewrite not64_bit, (proj2 (N.ltb_lt _ _) M); apply xorb_true_r.
Qed.

Lemma cs_add_has : forall c d b, cs_has (cs_add c d) b = cs_has c b || cs_has d b.
Proof.
  intros c d b. rewrite !cs_has_bit. unfold has_bit, cs_word, cs_add; cbn [cw0 cw1 cw2 cw3].
  repeat match goal with |- context[if ?x then _ else _] => destruct x end;
  rewrite N.lor_spec; apply orb_comm.
Qed.

Lemma cs_sub_has : forall c d b, cs_has (cs_sub c d) b = cs_has c b && negb (cs_has d b).
Proof.
  intros c d b. rewrite !cs_has_bit. unfold has_bit.
  pose proof (bN_lt b) as H.
  assert (M : bN b mod 64 < 64) by (apply N.mod_lt; lia).
  unfold cs_word, cs_sub; cbn [cw0 cw1 cw2 cw3].
  repeat match goal with |- context[if ?x then _ else _] => destruct x end;
  rewrite N.land_spec, not64_bit, (proj2 (N.ltb_lt _ _) M), xorb_true_r; apply andb_comm.
Qed.

(** extensionality: sets with the same members have the same words *)
Lemma word_ext : forall a b, a < 2 ^ 64 -> b < 2 ^ 64 ->
  (forall k, k < 64 -> N.testbit a k = N.testbit b k) -> a = b.
Proof.
  intros a b Ha Hb H. apply N.bits_inj. intro k.
  destruct (N.lt_ge_cases k 64) as [L|L]; auto.
  rewrite (proj1 (lt_bits a 64) Ha k L), (proj1 (lt_bits b 64) Hb k L). reflexivity.
Qed.

Lemma cs_has_word : forall c w k, w < 4 -> k < 64 -> N.testbit (cs_word c w) k = cs_has c (N2b (64 * w + k)).
Proof.
  intros c w k Hw Hk. rewrite cs_has_bit. unfold has_bit.
  rewrite bN_N2b by lia.
  assert ((64 * w + k) / 64 = w) as ->.
  { rewrite N.mul_comm, N.div_add_l by lia. rewrite N.div_small by assumption. lia. }
  assert ((64 * w + k) mod 64 = k) as ->.
  { rewrite N.add_comm, N.mul_comm, N.mod_add by lia. apply N.mod_small. assumption. }
  reflexivity.
Qed.

Lemma cs_ext : forall c d, cs_wf c -> cs_wf d -> (forall b, cs_has c b = cs_has d b) -> c = d.
Proof.
  intros c d [A [B [C D]]] [A' [B' [C' D']]] H.
  destruct c as [c0 c1 c2 c3], d as [d0 d1 d2 d3]; cbn [cw0 cw1 cw2 cw3] in *.
  assert (E : forall w k, w < 4 -> k < 64 -> N.testbit (cs_word (CSet c0 c1 c2 c3) w) k = N.testbit (cs_word (CSet d0 d1 d2 d3) w) k).
  { intros. rewrite !cs_has_word by assumption. apply H. }
  f_equal; apply word_ext; auto; intros k Hk.
  - apply (E 0 k); lia.
  - apply (E 1 k); lia.
  - apply (E 2 k); lia.
  - apply (E 3 k); lia.
Qed.

Lemma cs_eqb_eq : forall a b, cs_eqb a b = true <-> a = b.
Proof.
  intros [a0 a1 a2 a3] [b0 b1 b2 b3]. unfold cs_eqb; cbn [cw0 cw1 cw2 cw3]. rewrite !andb_true_iff, !N.eqb_eq.
  split; [intros [[[-> ->] ->] ->]; reflexivity|]. intro H. inversion H. auto.
Qed.

(** counting *)
Lemma filter_map_length : forall {A B} (f : A -> B) (p : B -> bool) l,
  length (filter p (map f l)) = length (filter (fun x => p (f x)) l).
Proof. intros. induction l; simpl; auto. destruct (p (f a)); simpl; rewrite IHl; reflexivity. Qed.

Lemma filter_ext_len : forall {A} (p q : A -> bool) l, (forall x, In x l -> p x = q x) ->
  length (filter p l) = length (filter q l).
Proof.
  intros A p q l. induction l; simpl; intros H; auto.
  rewrite (H a) by auto. destruct (q a); simpl; rewrite IHl; auto.
Qed.

Lemma seq_shift_filter' : forall n m a (p : nat -> bool),
  length (filter p (seq (m + a) n)) = length (filter (fun x => p (m + x)%nat) (seq a n)).
Proof.
  intros n. induction n; intros m a p; simpl; auto.
  destruct (p (m + a)%nat); simpl; rewrite <- IHn, Nat.add_succ_r; reflexivity.
Qed.

Lemma seq_shift_filter : forall n m (p : nat -> bool),
  length (filter p (seq m n)) = length (filter (fun x => p (m + x)%nat) (seq 0 n)).
Proof.
  intros n m p. rewrite <- seq_shift_filter', Nat.add_0_r. reflexivity.
Qed.

Lemma popcount_seq : forall c w, w < 4 -> popcount (cs_word c w) =
  length (filter (fun x => cs_has c (N2b (N.of_nat x))) (seq (64 * N.to_nat w) 64)).
Proof.
  intros c w Hw. unfold popcount. rewrite filter_map_length.
  rewrite (seq_shift_filter 64 (64 * N.to_nat w)).
  apply filter_ext_len. intros x Hx. apply in_seq in Hx.
  rewrite cs_has_word by lia. f_equal. f_equal. lia.
Qed.

Lemma cs_size_count : forall c, cs_size c = length (filter (cs_has c) all_bytes).
Proof.
  intro c. unfold all_bytes, all_N256. rewrite map_map, filter_map_length.
  change (seq 0 256) with (seq 0 64 ++ seq 64 64 ++ seq 128 64 ++ seq 192 64)%list.
  rewrite !filter_app, !app_length.
  pose proof (popcount_seq c 0 ltac:(lia)) as P0. pose proof (popcount_seq c 1 ltac:(lia)) as P1.
  pose proof (popcount_seq c 2 ltac:(lia)) as P2. pose proof (popcount_seq c 3 ltac:(lia)) as P3.
  change (64 * N.to_nat 0)%nat with 0%nat in P0. change (64 * N.to_nat 1)%nat with 64%nat in P1.
  change (64 * N.to_nat 2)%nat with 128%nat in P2. change (64 * N.to_nat 3)%nat with 192%nat in P3.
  rewrite <- P0, <- P1, <- P2, <- P3. unfold cs_size, cs_word. cbn [N.eqb Pos.eqb]. lia.
Qed.

Lemma cs_is_small_spec : forall c, cs_wf c ->
  (cs_is_small c = true <-> forall b, 128 <= bN b -> cs_has c b = false).
Proof.
  intros c W. unfold cs_is_small. rewrite andb_true_iff, !N.eqb_eq. split.
  - intros [E2 E3] b Hb. rewrite cs_has_bit. unfold has_bit.
    pose proof (bN_lt b).
    destruct (div64_cases (bN b)) as [[A [B C]]|[[A [B C]]|[[A [B C]]|[A [B C]]]]]; auto; try lia;
    rewrite B; unfold cs_word; cbn [N.eqb Pos.eqb]; rewrite ?E2, ?E3; apply N.bits_0.
  - intros H. destruct W as [_ [_ [W2 W3]]]. split.
    + apply word_ext; auto; [reflexivity|]. intros k Hk. rewrite N.bits_0.
      change (cw2 c) with (cs_word c 2). rewrite cs_has_word by lia. apply H.
      rewrite bN_N2b; lia.
    + apply word_ext; auto; [reflexivity|]. intros k Hk. rewrite N.bits_0.
      change (cw3 c) with (cs_word c 3). rewrite cs_has_word by lia. apply H.
      rewrite bN_N2b; lia.
Qed.

Lemma ss_has_agree : forall c b, bN b < 128 -> ss_has (cs_small c) b = Some (cs_has c b).
Proof.
  intros c b H. unfold ss_has, cs_has. rewrite shr6. pose proof (bN_lt b).
  destruct (div64_cases (bN b)) as [[A [B C]]|[[A [B C]]|[[A [B C]]|[A [B C]]]]]; auto; try lia;
  rewrite B; reflexivity.
Qed.

Lemma ss_size_agree : forall c, cs_is_small c = true -> ss_size (cs_small c) = cs_size c.
Proof.
  intros c H. unfold cs_is_small in H. apply andb_true_iff in H. destruct H as [H2 H3].
  apply N.eqb_eq in H2, H3. unfold ss_size, cs_size. rewrite H2, H3. cbn [cs_small sw0 sw1].
  change (popcount 0) with 0%nat. lia.
Qed.

Lemma cs_new_in : forall chars b, cs_has (cs_new chars) b = true <-> In b chars.
Proof.
  intros. rewrite cs_new_has, existsb_exists. split.
  - intros [x [H E]]. apply byte_eqb_eq in E. subst. assumption.
  - intro H. exists b. split; auto. apply byte_eqb_refl.
Qed.

Lemma cs_range_in : forall lo hi b, cs_has (cs_range lo hi) b = true <-> bN lo <= bN b <= bN hi.
Proof. intros. rewrite cs_range_has, andb_true_iff, !N.leb_le. reflexivity. Qed.

Lemma cs_compl_in : forall c b, cs_has (cs_compl c) b = true <-> cs_has c b = false.
Proof. intros. rewrite cs_compl_has. apply negb_true_iff. Qed.

Lemma cs_add_in : forall c d b, cs_has (cs_add c d) b = true <-> cs_has c b = true \/ cs_has d b = true.
Proof. intros. rewrite cs_add_has. apply orb_true_iff. Qed.

Lemma cs_sub_in : forall c d b, cs_has (cs_sub c d) b = true <-> cs_has c b = true /\ cs_has d b = false.
Proof. intros. rewrite cs_sub_has, andb_true_iff, negb_true_iff. reflexivity. Qed.

Lemma cs_eqb_ext : forall c d, cs_wf c -> cs_wf d ->
  (cs_eqb c d = true <-> forall b, cs_has c b = cs_has d b).
Proof.
  intros c d Wc Wd. rewrite cs_eqb_eq. split; [intros ->; reflexivity|].
  apply cs_ext; assumption.
Qed.

Lemma cs_all_wf : (forall l, cs_wf (cs_new l)) /\ (forall a b, cs_wf (cs_range a b)) /\
  (forall c, cs_wf c -> cs_wf (cs_compl c)) /\
  (forall c d, cs_wf c -> cs_wf d -> cs_wf (cs_add c d)) /\
  (forall c d, cs_wf c -> cs_wf d -> cs_wf (cs_sub c d)).
Proof.
  repeat split; intros; try apply cs_new_wf; try apply cs_range_wf;
  try (apply cs_compl_wf; assumption); try (apply cs_add_wf; assumption); apply cs_sub_wf; assumption.
Qed.

Lemma all_bytes_ok : NoDup all_bytes /\ forall b, In b all_bytes.
Proof.
  split; [|apply in_all_bytes].
  unfold all_bytes, all_N256. rewrite map_map.
  assert (G : forall n m, (m + n <= 256)%nat -> NoDup (map (fun x => N2b (N.of_nat x)) (seq m n))).
  { induction n; intros m H; simpl; constructor.
    - intro I. apply in_map_iff in I. destruct I as [x [E I]]. apply in_seq in I.
      apply (f_equal bN) in E. rewrite !bN_N2b in E by lia. lia.
    - apply IHn. lia. }
  apply G. lia.
Qed.
