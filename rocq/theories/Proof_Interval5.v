(** Two facts that the model of the lazylog tree relies on. *)
From Coq Require Import ZArith Lia.
From Verif Require Import Base Model_Interval Proof_Interval Proof_Interval2.
Local Open Scope Z_scope.

Section P.
Context {V : Type}.
Notation tree := (tree V).
Notation nd := (nd V).

(** rebalanceTree only rotates a node that has the child in question, so [or_self] in [rebalance]
    never hides a nil dereference *)
Lemma rotate_left_some : forall shs (n : nd) l r, r <> Leaf -> rotate_left shs (Node n l r) <> None /\ rotate_left shs (Node n l r) <> Some Leaf.
Proof. intros shs n l [|m rl rr] H; [congruence|]. cbn. split; discriminate. Qed.
Lemma rotate_right_some : forall shs (n : nd) l r, l <> Leaf -> rotate_right shs (Node n l r) <> None /\ rotate_right shs (Node n l r) <> Some Leaf.
Proof. intros shs n [|m ll lr] r H; [congruence|]. cbn. split; discriminate. Qed.
Lemma height_node : forall t : tree, (0 < height t)%nat -> t <> Leaf.
Proof. intros [|] H E; [cbn in H; lia|discriminate]. Qed.

Lemma rebalance_rotates : forall shs (n : nd) l r,
  ((height l + 2 <= height r)%nat ->
     ((height_right r < height_left r)%nat -> rotate_right shs r <> None) /\
     rotate_left shs (Node n l (if (height_right r <? height_left r)%nat then or_self (rotate_right shs r) r else r)) <> None) /\
  ((height r + 2 <= height l)%nat ->
     ((height_left l < height_right l)%nat -> rotate_left shs l <> None) /\
     rotate_right shs (Node n (if (height_left l <? height_right l)%nat then or_self (rotate_left shs l) l else l) r) <> None).
Proof.
  intros shs n l r. split; intros H.
  - assert (R : r <> Leaf) by (apply height_node; lia). destruct r as [|m rl rr]; [congruence|].
    assert (K : (height_right (Node m rl rr) < height_left (Node m rl rr))%nat -> rotate_right shs (Node m rl rr) <> None /\ rotate_right shs (Node m rl rr) <> Some Leaf).
    { intros Q. apply rotate_right_some. apply height_node. cbn in Q. lia. }
    split; [intros Q; apply K; exact Q|]. apply rotate_left_some.
    destruct (Nat.ltb_spec (height_right (Node m rl rr)) (height_left (Node m rl rr))) as [Q|Q]; [|discriminate].
    destruct (K Q) as [K1 K2]. destruct (rotate_right shs (Node m rl rr)); cbn; congruence.
  - assert (R : l <> Leaf) by (apply height_node; lia). destruct l as [|m ll lr]; [congruence|].
    assert (K : (height_left (Node m ll lr) < height_right (Node m ll lr))%nat -> rotate_left shs (Node m ll lr) <> None /\ rotate_left shs (Node m ll lr) <> Some Leaf).
    { intros Q. apply rotate_left_some. apply height_node. cbn in Q. lia. }
    split; [intros Q; apply K; exact Q|]. apply rotate_right_some.
    destruct (Nat.ltb_spec (height_left (Node m ll lr)) (height_right (Node m ll lr))) as [Q|Q]; [|discriminate].
    destruct (K Q) as [K1 K2]. destruct (rotate_left shs (Node m ll lr)); cbn; congruence.
Qed.

(** the tree as findSmallest leaves it: the shifts are applied along the left spine *)
Fixpoint spine (shs : list shift) (t : tree) : tree :=
  match t with Leaf => Leaf | Node n l r => Node (apply_shifts shs n l r) (spine shs l) r end.

Lemma remove_spine : forall shs (t : tree) n l r, t = Node n l r -> wf_shs shs -> inv shs t ->
  let m := smallest shs n l r in remove shs (n_pos m) (n_id m) (spine shs t) = remove shs (n_pos m) (n_id m) t.
Proof.
  intros shs. induction t as [|n l IHl r IHr]; intros n0 l0 r0 E W H m; [discriminate|]. injection E as <- <- <-.
  destruct (node_sync shs n l r W H) as (H2 & T2 & V2).
  pose proof H2 as H3. apply inv_elim in H3; [|assumption|assumption]. destruct H3 as (A & B & C & D & F & G & I & J).
  cbn [spine remove]. rewrite (apply_id shs (apply_shifts shs n l r)) by assumption. destruct l as [|ln ll lr].
  - reflexivity.
  - pose proof (remove_min shs (Node ln ll lr) ln ll lr eq_refl W I) as RM. cbv zeta in RM.
    assert (Em : m = smallest shs ln ll lr) by reflexivity. clearbody m. subst m.
    set (m := smallest shs ln ll lr) in *. destruct RM as (X & Y & Z).
    set (n1 := apply_shifts shs n (Node ln ll lr) r) in *. clearbody n1.
    assert (K1 : klt (view m) (view n1)) by (rewrite Z in F; inversion F; assumption).
    pose proof (key_compare_spec (n_pos m) (n_id m) (n_pos n1) (n_id n1)) as K.
    destruct (key_compare (n_pos m) (n_id m) (n_pos n1) (n_id n1)); unfold klt in K1; cbn in K1; try lia.
    pose proof (IHl ln ll lr eq_refl W I) as Q. cbv zeta in Q. fold m in Q. rewrite <- Q. reflexivity.
Qed.

End P.
