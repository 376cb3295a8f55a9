(** Property C43: the interval tree of memo/interval/lazy. *)
From Coq Require Import ZArith Lia.
From Verif Require Import Base Model_Interval Spec_Interval Model_Lazy Proof_Lazy.
Local Open Scope Z_scope.

(** ** C43 *)
(** several keys, several values of one key, removals of inner nodes, edits that grow the text *)
Definition lazy_history : list (iop nat) :=
  [OAdd 0 10 14 1%nat; OAdd 0 2 3 2%nat; OAdd 0 10 15 3%nat; OAdd 1 10 11 4%nat; OAdd 0 20 25 5%nat; OAdd 0 30 31 6%nat; OFind 0 10; OPos 0;
   OShift 2 3 4; OAdd 0 3 4 7%nat; OAdd 0 5 9 8%nat; OPos 2; OShift 15 16 0; OFind 0 14; OAdd 0 8 9 9%nat; OShift 7 8 2].
Ltac lazy_tac := unfold lazy_history; cbn [app]; repeat (apply Forall_cons; [cbn; lia|]); apply Forall_nil.
Example lazy_history_ok : Forall sane lazy_history /\ Forall growing lazy_history.
Proof. split; lazy_tac. Qed.

(** removeOverlaps finishes *)
Theorem C43_total : forall {V} (tr : list (iop V)), Forall sane tr -> Forall growing tr -> lt_run tr <> None.
Proof. exact @lazy_total. Qed.
Print Assumptions C43_total.

(** as long as the text does not get shorter, the tree is the reference map: FindLargest finds the largest value stored
    at (id, pos), and nil only if there is none *)
Theorem C43_find : forall {V} (tr : list (iop V)) t id pos, Forall sane tr -> Forall growing tr -> lt_run tr = Some t ->
  match snd (lt_find t id pos) with
  | Some v => exists h, In (id, pos, h, v) (ref_run tr) /\ forall h' v', In (id, pos, h', v') (ref_run tr) -> h' <= h
  | None => forall h v, ~ In (id, pos, h, v) (ref_run tr)
  end.
Proof. exact @lazy_find. Qed.
Print Assumptions C43_find.
Example C43_find_case : exists t, lt_run lazy_history = Some t /\ ref_run lazy_history = [(1, 16, 17, 4%nat); (0, 26, 31, 5%nat); (0, 36, 37, 6%nat); (0, 3, 4, 7%nat); (0, 10, 11, 9%nat)] /\
  snd (lt_find t 0 26) = Some 5%nat /\ snd (lt_find t 1 16) = Some 4%nat /\ snd (lt_find t 0 16) = None.
Proof. eexists. split; [vm_compute; reflexivity|]. vm_compute. auto. Qed.

(** the handle of a value that is not removed gives the position where the value is now *)
Theorem C43_handle : forall {V} (a b : list (iop V)) id low high v t t', Forall sane (a ++ OAdd id low high v :: b) -> Forall growing (a ++ OAdd id low high v :: b) ->
  survives low (high - low) b -> lt_run a = Some t -> lt_run (a ++ OAdd id low high v :: b) = Some t' ->
  snd (lt_pos t' (snd (lt_add t id low high v))) = Some (follow low b).
Proof. exact @lazy_handle. Qed.
Print Assumptions C43_handle.
Example C43_handle_case : exists a b, lazy_history = a ++ OAdd 0 20 25 5%nat :: b /\ survives 20 (25 - 20) b /\ follow 20 b = 26.
Proof. exists (firstn 4 lazy_history), (skipn 5 lazy_history). split; [reflexivity|]. split; [|reflexivity]. cbn. unfold meets. lia. Qed.

(** Size is the number of keys that have a value *)
Theorem C43_size : forall {V} (tr : list (iop V)) t, Forall sane tr -> Forall growing tr -> lt_run tr = Some t ->
  exists ks, NoDup ks /\ (forall k, In k ks <-> In k (map stored_key (ref_run tr))) /\ lt_size t = List.length ks.
Proof. exact @lazy_size. Qed.
Print Assumptions C43_size.
Example C43_size_case : exists t, lt_run (firstn 7 lazy_history) = Some t /\ lt_size t = 5%nat /\ List.length (ref_run (firstn 7 lazy_history)) = 6%nat.
Proof. eexists. split; [vm_compute; reflexivity|]. vm_compute. auto. Qed.

(** after any history every parent pointer is right, so that Pos applies the shifts of all the nodes above *)
Theorem C43_parents : forall {V} (tr : list (iop V)) t, lt_run tr = Some t -> parents_from None (lt_root t).
Proof. exact @lazy_parents. Qed.
Print Assumptions C43_parents.
Example C43_parents_case : exists t n l r, lt_run lazy_history = Some t /\ lt_root t = LNode n l r /\ l <> LLeaf /\ r <> LLeaf.
Proof. eexists _, _, _, _. split; [vm_compute; reflexivity|]. split; [reflexivity|]. split; discriminate. Qed.

(** An edit that makes the text shorter also moves the maximum of a node whose own interval ends where the edit
    starts: [5,10) is taken to end at 8, the next edit at [8,9) does not remove it, and it is still found. *)
Theorem C43_shrink_refuted : exists (tr : list (iop nat)) low high amt t v l h, Forall sane (tr ++ [OShift low high amt]) /\
  lt_run (tr ++ [OShift low high amt]) = Some t /\ In (0, l, h, v) (ref_run tr) /\ meets l h low high /\ l < low /\ snd (lt_find t 0 l) = Some v /\
  forall h' v', ~ In (0, l, h', v') (ref_run (tr ++ [OShift low high amt])).
Proof.
  exists [OAdd 0 5 10 1%nat; OShift 10 12 (-2)], 8, 9, 0. eexists. exists 1%nat, 5, 10.
  split; [cbn [app]; repeat (apply Forall_cons; [cbn; lia|]); apply Forall_nil|]. split; [vm_compute; reflexivity|].
  split; [vm_compute; auto|]. split; [unfold meets; lia|]. split; [lia|]. split; [vm_compute; reflexivity|].
  intros h' v' H. vm_compute in H. exact H.
Qed.
Print Assumptions C43_shrink_refuted.
