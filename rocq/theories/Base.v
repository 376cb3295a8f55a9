(** Common imports and small list/byte helpers used by the whole development.
    Nothing in this file models gpeg code. *)
From Coq Require Export List Arith NArith ZArith Lia Bool.
From Coq Require Export Strings.Byte.
Export ListNotations.
Global Open Scope bool_scope.

(** All 256 bytes in increasing order. *)
Definition all_N256 : list N := map N.of_nat (seq 0 256).

Definition bN (b : byte) : N := Byte.to_N b.

(** Conversion of a number to a byte with uint8 wrap-around. *)
Definition N2b (n : N) : byte :=
  match Byte.of_N (n mod 256) with Some b => b | None => x00 end.

Definition all_bytes : list byte := map N2b all_N256.

Lemma bN_lt : forall b, (bN b < 256)%N.
Proof. intro b. unfold bN. pose proof (Byte.to_N_bounded b). lia. Qed.

Lemma N2b_bN : forall b, N2b (bN b) = b.
Proof.
  intro b. unfold N2b. rewrite N.mod_small by apply bN_lt.
  unfold bN. rewrite Byte.of_to_N. reflexivity.
Qed.

Lemma bN_N2b : forall n, (n < 256)%N -> bN (N2b n) = n.
Proof.
  intros n H. unfold N2b. rewrite N.mod_small by assumption.
  destruct (Byte.of_N n) as [b|] eqn:E.
  - apply Byte.to_of_N in E. exact E.
  - apply Byte.of_N_None_iff in E. lia.
Qed.

Lemma bN_inj : forall a b, bN a = bN b -> a = b.
Proof. intros a b H. rewrite <- (N2b_bN a), <- (N2b_bN b), H. reflexivity. Qed.

Definition byte_eqb (a b : byte) : bool := Byte.eqb a b.

Lemma byte_eqb_eq : forall a b, byte_eqb a b = true <-> a = b.
Proof.
  intros a b. unfold byte_eqb. split; intro H.
  - apply Byte.byte_dec_bl. exact H.
  - apply Byte.byte_dec_lb. exact H.
Qed.

Lemma byte_eqb_refl : forall a, byte_eqb a a = true.
Proof. intro a. apply byte_eqb_eq. reflexivity. Qed.

Lemma byte_eqb_neq : forall a b, byte_eqb a b = false <-> a <> b.
Proof.
  intros a b. destruct (byte_eqb a b) eqn:E.
  - split; [discriminate|]. intro H. apply byte_eqb_eq in E. contradiction.
  - split; auto. intros _ ->. rewrite byte_eqb_refl in E. discriminate.
Qed.

Lemma in_all_bytes : forall b, In b all_bytes.
Proof.
  intro b. unfold all_bytes. rewrite <- (N2b_bN b). apply in_map.
  unfold all_N256. apply in_map_iff. exists (N.to_nat (bN b)). split.
  - apply N2Nat.id.
  - apply in_seq. pose proof (bN_lt b). lia.
Qed.

(** Update position [i] of a list. *)
Fixpoint upd {A} (i : nat) (x : A) (l : list A) : list A :=
  match l, i with
  | [], _ => []
  | _ :: l, O => x :: l
  | y :: l, S i => y :: upd i x l
  end.

Lemma skipn_skipn' : forall {A} n m (l : list A), skipn n (skipn m l) = skipn (m + n) l.
Proof.
  intros A n m. revert n. induction m; intros n l; [reflexivity|].
  destruct l; simpl; [apply skipn_nil|]. apply IHm.
Qed.

Lemma nth_error_skipn' : forall {A} n i (l : list A), nth_error (skipn n l) i = nth_error l (n + i).
Proof.
  intros A n. induction n; intros i l; [reflexivity|].
  destruct l; simpl; [destruct i; reflexivity|]. apply IHn.
Qed.

Lemma nth_error_firstn' : forall {A} n i (l : list A), i < n -> nth_error (firstn n l) i = nth_error l i.
Proof.
  intros A n. induction n; intros i l H; [lia|].
  destruct l; [destruct i; reflexivity|]. destruct i; simpl; [reflexivity|]. apply IHn. lia.
Qed.

Lemma nth_error_firstn_ge : forall {A} n i (l : list A), n <= i -> nth_error (firstn n l) i = None.
Proof.
  intros A n i l H. apply nth_error_None. rewrite firstn_length. lia.
Qed.

Lemma skipn_nth_error : forall {A} (l : list A) i,
  skipn i l = match nth_error l i with Some c => c :: skipn (S i) l | None => [] end.
Proof. intros A l. induction l; intros [|i]; simpl; try reflexivity. apply IHl. Qed.
