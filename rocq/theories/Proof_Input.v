From Verif Require Import Base Model_Input Spec_Input.

Section P.
Variable bufsz : nat.
Notation i_step := (i_step bufsz).
Notation i_run := (i_run bufsz).
Notation reach := (reach bufsz).
Hypothesis Hb : 0 < bufsz.

(** the cursor the implementation state stands for *)
Definition abs (i : input) : cursor := Cursor (i_data i) (i_pos i) (i_furthest i).

Definition inv (i : input) : Prop :=
  i_chunk i = read_at (i_data i) (i_base i) bufsz /\
  (i_coff i < i_nchunk i \/ (i_nchunk i = 0 /\ i_coff i = 0)).

Lemma inv_refill : forall i p, inv (i_refill bufsz i p).
Proof.
  intros i p. split; simpl; auto. unfold i_nchunk; simpl.
  destruct (length (read_at (i_data i) p bufsz)) eqn:E; [right; auto|left; lia].
Qed.

Lemma abs_refill : forall i p, abs (i_refill bufsz i p) = Cursor (i_data i) p (i_furthest i).
Proof. intros. unfold abs, i_pos; simpl. rewrite Nat.add_0_r. reflexivity. Qed.

Lemma inv_new : forall d, inv (i_new bufsz d).
Proof. intro d. apply inv_refill. Qed.

Lemma abs_new : forall d, abs (i_new bufsz d) = Cursor d 0 0.
Proof. intro d. unfold i_new. rewrite abs_refill. reflexivity. Qed.

Lemma read_at_len : forall d off n, length (read_at d off n) = Nat.min n (length d - off).
Proof. intros. unfold read_at. rewrite firstn_length, skipn_length. reflexivity. Qed.

Lemma nchunk_zero : forall i, inv i -> (i_nchunk i = 0 <-> length (i_data i) <= i_pos i).
Proof.
  intros i [H1 H2]. unfold i_nchunk, i_pos in *. rewrite H1, read_at_len in *. lia.
Qed.

Lemma chunk_nth : forall i k, inv i -> k < i_nchunk i ->
  nth_error (i_data i) (i_base i + k) = Some (nth k (i_chunk i) x00).
Proof.
  intros i k [H1 _] Hk. unfold i_nchunk in Hk.
  rewrite <- (nth_error_nth' _ x00 Hk). rewrite H1. unfold read_at.
  rewrite nth_error_firstn', nth_error_skipn'; auto.
  rewrite H1, read_at_len in Hk. lia.
Qed.

Lemma peek_val : forall i, inv i -> fst (i_peek i) = nth_error (i_data i) (i_pos i).
Proof.
  intros i H. unfold i_peek; simpl.
  destruct (Nat.eqb_spec (i_nchunk i) 0) as [E|E].
  - symmetry. apply nth_error_None. apply nchunk_zero; auto.
  - symmetry. apply chunk_nth; auto. destruct H as [_ [?|[? ?]]]; lia.
Qed.

Lemma peek_abs : forall i, abs (snd (i_peek i)) = Cursor (i_data i) (i_pos i) (Nat.max (i_furthest i) (i_pos i)).
Proof.
  intros i. unfold i_peek, abs, i_pos; simpl.
  destruct (Nat.ltb_spec (i_furthest i) (i_base i + i_coff i)); f_equal; lia.
Qed.

Lemma peek_inv : forall i, inv i -> inv (snd (i_peek i)).
Proof. intros i H. exact H. Qed.

Lemma peek_before_val : forall i, inv i ->
  i_peek_before i = match i_pos i with O => None | S p => nth_error (i_data i) p end.
Proof.
  intros i H. unfold i_peek_before. fold (i_pos i).
  destruct (i_pos i) as [|p] eqn:Ep; auto.
  change (S p =? 0) with false. cbv iota. unfold i_pos in Ep.
  destruct (Nat.leb_spec 1 (i_coff i)).
  - assert (Hc : i_coff i < i_nchunk i) by (destruct H as [_ [?|[? ?]]]; lia).
    destruct (Nat.eqb_spec (i_nchunk i) 0); [lia|].
    rewrite <- (chunk_nth i (i_coff i - 1)) by (auto; lia). f_equal. lia.
  - assert (i_base i = S p) as E by lia.
    replace (S p - 1) with p by lia. unfold read_at.
    destruct (nth_error (i_data i) p) as [b|] eqn:En.
    + apply nth_error_split in En. destruct En as [l1 [l2 [E1 E2]]]. rewrite E1, <- E2.
      rewrite skipn_app, skipn_all, Nat.sub_diag. reflexivity.
    + apply nth_error_None in En. rewrite skipn_all2 by assumption. reflexivity.
Qed.

Lemma seek_ok : forall i p, inv i ->
  let r := i_seek bufsz i p in
  inv (snd r) /\ abs (snd r) = Cursor (i_data i) p (i_furthest i) /\ fst r = (p <? length (i_data i)).
Proof.
  intros i p H. unfold i_seek.
  destruct ((p <? i_base i + i_nchunk i) && (i_base i <=? p)) eqn:E; cbv zeta; simpl fst; simpl snd.
  - apply andb_true_iff in E. destruct E as [E1 E2]. apply Nat.ltb_lt in E1. apply Nat.leb_le in E2.
    destruct H as [H1 H2]. repeat split; auto.
    + left. unfold i_nchunk in *. simpl. lia.
    + unfold abs, i_pos. simpl. f_equal. lia.
    + symmetry. apply Nat.ltb_lt. unfold i_nchunk in *. rewrite H1, read_at_len in E1. lia.
  - split; [apply inv_refill|]. split; [apply abs_refill|].
    unfold i_nchunk. simpl. rewrite read_at_len.
    destruct (Nat.ltb_spec p (length (i_data i))).
    + apply negb_true_iff. apply Nat.eqb_neq. lia.
    + apply negb_false_iff. apply Nat.eqb_eq. lia.
Qed.

(** exact behaviour of Advance for every n *)
Lemma advance_gen : forall i n, inv i ->
  let r := i_advance bufsz i n in
  let p := i_pos i in let len := length (i_data i) in
  inv (snd r) /\
  (if len <=? p then fst r = false /\ snd r = i
   else fst r = (i_coff i + n <=? i_nchunk i) /\
        abs (snd r) = Cursor (i_data i) (p + n) (i_furthest i)).
Proof.
  intros i n H. unfold i_advance. cbv zeta.
  destruct (Nat.eqb_spec (i_nchunk i) 0) as [E|E].
  - split; [exact H|]. apply nchunk_zero in E; auto. apply Nat.leb_le in E. rewrite E. auto.
  - destruct (Nat.leb_spec (length (i_data i)) (i_pos i)) as [L|L].
    { apply nchunk_zero in L; auto. lia. }
    unfold i_nchunk in *. simpl.
    destruct (Nat.ltb_spec (length (i_chunk i)) (i_coff i + n)).
    + split; [apply inv_refill|]. cbn [fst snd]. split.
      * symmetry. apply Nat.leb_gt. lia.
      * rewrite abs_refill. simpl. unfold i_pos. f_equal. lia.
    + destruct (Nat.eqb_spec (i_coff i + n) (length (i_chunk i))); cbn [fst snd].
      * split; [apply inv_refill|]. split; [symmetry; apply Nat.leb_le; lia|].
        rewrite abs_refill. simpl. unfold i_pos. f_equal. lia.
      * split. { destruct H as [H1 _]. split; auto. left. unfold i_nchunk; simpl. lia. }
        split; [symmetry; apply Nat.leb_le; lia|].
        unfold abs, i_pos; simpl. f_equal. lia.
Qed.

(** when the whole text is in one chunk, Advance(n) succeeds exactly if n bytes are left *)
Lemma advance_small : forall i n, inv i -> length (i_data i) <= bufsz -> 0 < n ->
  fst (i_advance bufsz i n) = (i_pos i + n <=? length (i_data i)).
Proof.
  intros i n H Hs Hn. destruct (advance_gen i n H) as [_ H2]. cbv zeta in H2.
  destruct (Nat.leb_spec (length (i_data i)) (i_pos i)) as [L|L].
  - destruct H2 as [-> _]. symmetry. apply Nat.leb_gt. lia.
  - destruct H2 as [-> _]. destruct H as [Hc _]. unfold i_nchunk, i_pos in *. rewrite Hc, read_at_len.
    destruct (Nat.leb_spec (i_coff i + n) (Nat.min bufsz (length (i_data i) - i_base i)));
    destruct (Nat.leb_spec (i_base i + i_coff i + n) (length (i_data i))); lia || reflexivity.
Qed.

Lemma advance_1 : forall i, inv i ->
  let r := i_advance bufsz i 1 in
  inv (snd r) /\ (fst r, abs (snd r)) =
    (if i_pos i + 1 <=? length (i_data i)
     then (true, Cursor (i_data i) (i_pos i + 1) (i_furthest i)) else (false, abs i)).
Proof.
  intros i H. destruct (advance_gen i 1 H) as [H1 H2]. cbv zeta in *. split; auto.
  destruct (Nat.leb_spec (length (i_data i)) (i_pos i)) as [L|L].
  - destruct H2 as [-> ->]. destruct (Nat.leb_spec (i_pos i + 1) (length (i_data i))); [lia|reflexivity].
  - destruct H2 as [-> ->]. destruct (Nat.leb_spec (i_pos i + 1) (length (i_data i))); [|lia].
    destruct (Nat.leb_spec (i_coff i + 1) (i_nchunk i)) as [|G]; auto.
    pose proof (nchunk_zero i H) as Z.
    destruct H as [_ [H|[H Hc]]]; [lia|]. exfalso. apply Z in H. lia.
Qed.

Lemma step_refines : forall i op, inv i -> unit_advance op ->
  inv (snd (i_step i op)) /\ cursor_step (abs i) op = (fst (i_step i op), abs (snd (i_step i op))).
Proof.
  intros i op H U. destruct op; cbn [i_step].
  - pose proof (peek_val i H) as V. pose proof (peek_abs i) as A. pose proof (peek_inv i H) as I.
    destruct (i_peek i) as [b i']. cbn [fst snd] in *. split; auto. simpl. rewrite A, V. reflexivity.
  - split; auto. cbn [fst snd]. rewrite peek_before_val by assumption. reflexivity.
  - pose proof (seek_ok i p H) as [I [A V]]. destruct (i_seek bufsz i p) as [b i']. cbn [fst snd] in *.
    split; auto. simpl. rewrite A, V. reflexivity.
  - simpl in U. subst. pose proof (advance_1 i H) as [I E]. destruct (i_advance bufsz i 1) as [b i'].
    cbn [fst snd] in *. split; auto. unfold cursor_step. cbn [c_pos c_data c_far abs].
    destruct (i_pos i + 1 <=? length (i_data i)); (injection E as -> E'; unfold abs in *; simpl; congruence).
  - split; auto.
  - split; auto.
  - split; [exact H|]. reflexivity.
  - split; auto.
Qed.

Lemma run_refines : forall ops i, inv i -> Forall unit_advance ops -> i_run i ops = cursor_run (abs i) ops.
Proof.
  intros ops. induction ops; intros i H F; simpl; auto.
  inversion F; subst. destruct (step_refines i a H H2) as [I E].
  rewrite E. destruct (i_step i a) as [o i']. simpl in *. f_equal. apply IHops; auto.
Qed.

Lemma run_new : forall data ops, Forall unit_advance ops ->
  i_run (i_new bufsz data) ops = cursor_run (Cursor data 0 0) ops.
Proof. intros. rewrite run_refines; auto using inv_new. Qed.

Lemma advance_data : forall i n, i_data (snd (i_advance bufsz i n)) = i_data i.
Proof.
  intros. unfold i_advance. cbv zeta.
  repeat match goal with |- context[if ?x then _ else _] => destruct x end; reflexivity.
Qed.

Lemma reach_inv : forall d i, reach d i -> inv i /\ i_data i = d.
Proof.
  intros d i R. induction R as [|i op R [IH E]].
  - split; [apply inv_new|reflexivity].
  - destruct op; cbn [i_step].
    + split; [exact IH|exact E].
    + auto.
    + pose proof (seek_ok i p IH) as [I [A _]]. destruct (i_seek bufsz i p); simpl in *. split; auto.
      inversion A. congruence.
    + pose proof (advance_gen i n IH) as [I _]. pose proof (advance_data i n) as D.
      destruct (i_advance bufsz i n); simpl in *. split; congruence.
    + auto.
    + auto.
    + split; [exact IH|exact E].
    + auto.
Qed.

(** Advance: what is true for every n *)
Lemma advance_exact : forall data i n, reach data i ->
  let r := i_advance bufsz i n in
  (fst r = true -> i_pos i + n <= length data /\ i_pos (snd r) = i_pos i + n) /\
  (fst r = false -> i_pos i < length data -> i_coff i + n <= bufsz -> length data < i_pos i + n) /\
  (i_pos i < length data -> i_pos (snd r) = i_pos i + n) /\
  (length data <= i_pos i -> fst r = false /\ i_pos (snd r) = i_pos i).
Proof.
  intros data i n R. destruct (reach_inv _ _ R) as [H <-].
  destruct (advance_gen i n H) as [_ A]. cbv zeta in *.
  destruct (Nat.leb_spec (length (i_data i)) (i_pos i)) as [L|L].
  - destruct A as [-> ->]. repeat split; intros; try discriminate; try lia.
  - destruct A as [F A]. rewrite F.
    assert (P : i_pos (snd (i_advance bufsz i n)) = i_pos i + n) by (inversion A; reflexivity).
    destruct H as [H1 H2].
    assert (N0 : i_nchunk i = Nat.min bufsz (length (i_data i) - i_base i)).
    { unfold i_nchunk. rewrite H1. apply read_at_len. }
    repeat split; try assumption; intros; try lia.
    + apply Nat.leb_le in H. unfold i_pos in *. lia.
    + apply Nat.leb_gt in H. unfold i_pos in *. lia.
Qed.

Lemma advance_one_iff : forall data i, reach data i ->
  (fst (i_advance bufsz i 1) = true <-> i_pos i + 1 <= length data).
Proof.
  intros data i R. destruct (reach_inv _ _ R) as [H <-].
  destruct (advance_1 i H) as [_ E]. apply (f_equal fst) in E. cbn [fst] in E. rewrite E.
  destruct (Nat.leb_spec (i_pos i + 1) (length (i_data i))); simpl; split; intros; auto; try discriminate; lia.
Qed.
End P.

(** Advance fails across the end of a full chunk although the bytes exist. *)
Lemma advance_refuted : exists data ops n,
  let i := fold_left (fun i op => snd (i_step (N.to_nat 4096) i op)) ops (i_new (N.to_nat 4096) data) in
  i_pos i + n <= length data /\ fst (i_advance (N.to_nat 4096) i n) = false.
Proof.
  exists (repeat x61 (N.to_nat 5000)), [OpSeek (N.to_nat 4095); OpSeek 0; OpSeek (N.to_nat 4095)], 2.
  vm_compute. split; [|reflexivity]. apply Nat.leb_le. vm_compute. reflexivity.
Qed.

Lemma advance0_refuted : exists data, let i := i_new (N.to_nat 4096) data in
  i_pos i + 0 <= length data /\ fst (i_advance (N.to_nat 4096) i 0) = false.
Proof. exists []. split; [simpl; lia|reflexivity]. Qed.
