(** Property C48: interval trees are balanced. *)
From Coq Require Import ZArith Lia.
From Verif Require Import Base Model_Interval Spec_Interval Model_Lazy Spec_Balance Spec_BalanceLazy Proof_Balance Proof_BalanceLazy.
Local Open Scope Z_scope.

(** ** C48 *)
(** without edits *)
Theorem C48_balanced_partial : forall {V} (tr : list (iop V)) t, Forall (fun o => ~ is_shift o) tr -> it_run tr = Some t -> balanced (t_root t).
Proof. exact @run_balanced. Qed.
Print Assumptions C48_balanced_partial.

(** the longest way down is at most twice the logarithm of the number of nodes *)
Theorem C48_depth_partial : forall {V} (tr : list (iop V)) t, Forall (fun o => ~ is_shift o) tr -> it_run tr = Some t ->
  (2 ^ depth (t_root t) <= (it_size t + 1) * (it_size t + 1))%nat.
Proof. exact @run_depth. Qed.
Print Assumptions C48_depth_partial.

(** Add keeps any tree balanced, whatever shifts are pending in it, if the nodes know their heights *)
Theorem C48_add : forall {V} (t : itree V) id low high v, balanced (t_root t) -> heights (t_root t) ->
  balanced (t_root (fst (it_add t id low high v))) /\ heights (t_root (fst (it_add t id low high v))).
Proof. exact @add_balanced. Qed.
Print Assumptions C48_add.

(** so does the removal of one node *)
Theorem C48_remove : forall {V} shs pos id (t : tree V), balanced t -> heights t ->
  balanced (remove shs pos id t) /\ heights (remove shs pos id t).
Proof. exact @remove_balanced. Qed.
Print Assumptions C48_remove.

(** values at 0, 2, 4, ... in ascending order *)
Definition ascending (n : nat) : list (iop nat) := map (fun k => OAdd 0 (2 * Z.of_nat k) (2 * Z.of_nat k + 1) k) (seq 0 n).
Example C48_case : Forall (fun o => ~ is_shift o) (ascending 63) /\ exists t, it_run (ascending 63) = Some t /\ it_size t = 63%nat /\ depth (t_root t) = 6%nat.
Proof.
  split; [unfold ascending; apply Forall_map, Forall_forall; intros k _ []|]. eexists. split; [vm_compute; reflexivity|]. vm_compute. auto.
Qed.

(** the trees to which C48_add and C48_remove apply *)
Example C48_known : exists t, it_run (ascending 7) = Some t /\ balanced (t_root t) /\ heights (t_root t) /\ it_size t = 7%nat.
Proof. eexists. split; [vm_compute; reflexivity|]. vm_compute. repeat split; repeat constructor. Qed.

(** removeOverlaps takes nodes out below other nodes without balancing these: the tree becomes a list *)
Definition thinned : list (iop nat) := ascending 63 ++ [OShift 4 5 0; OShift 8 13 0; OShift 16 29 0; OShift 32 61 0; OShift 64 125 0].
Theorem C48_refuted : exists (tr : list (iop nat)) t, calm tr /\ it_run tr = Some t /\ it_size t = 6%nat /\ depth (t_root t) = 6%nat.
Proof.
  exists thinned. eexists. split.
  - split; [|left]; unfold thinned, ascending; apply Forall_app; (split; [apply Forall_map, Forall_forall; intros k _; cbn [sane growing]; exact Logic.I || lia|repeat (apply Forall_cons; [cbn; lia|]); apply Forall_nil]).
  - split; [vm_compute; reflexivity|]. vm_compute. auto.
Qed.
Print Assumptions C48_refuted.

(** ** the same for lazy.Tree *)
Theorem C48_lazy_balanced_partial : forall {V} (tr : list (iop V)) t, Forall (fun o => ~ is_shift o) tr -> lt_run tr = Some t -> lbalanced (lt_root t).
Proof. exact (fun V tr t F R => proj1 (@lrun_balanced V tr t F R)). Qed.
Print Assumptions C48_lazy_balanced_partial.

Theorem C48_lazy_depth_partial : forall {V} (tr : list (iop V)) t, Forall (fun o => ~ is_shift o) tr -> lt_run tr = Some t ->
  (2 ^ ldepth (lt_root t) <= (lt_size t + 1) * (lt_size t + 1))%nat.
Proof. exact (fun V tr t F R => ldepth_size _ (proj1 (@lrun_balanced V tr t F R))). Qed.
Print Assumptions C48_lazy_depth_partial.

(** Add keeps any tree balanced, whatever shifts are pending in it *)
Theorem C48_lazy_add : forall {V} (t : lztree V) id low high v, lbalanced (lt_root t) -> lheights (lt_root t) ->
  lbalanced (lt_root (fst (lt_add t id low high v))) /\ lheights (lt_root (fst (lt_add t id low high v))).
Proof. exact @ladd_balanced. Qed.
Print Assumptions C48_lazy_add.

Theorem C48_lazy_remove : forall {V} pos id p ss (t : ltree V), lbalanced t -> lheights t ->
  lbalanced (lremove pos id p ss t) /\ lheights (lremove pos id p ss t).
Proof. exact (fun V pos id p ss t B H => proj1 (@lremove_avl V t pos id p ss (conj B H))). Qed.
Print Assumptions C48_lazy_remove.

Example C48_lazy_case : exists t, lt_run (ascending 63) = Some t /\ lt_size t = 63%nat /\ ldepth (lt_root t) = 6%nat.
Proof. eexists. split; [vm_compute; reflexivity|]. vm_compute. auto. Qed.

(** a tree with a pending shift to which C48_lazy_add and C48_lazy_remove apply *)
Example C48_lazy_known : exists t, lt_run (ascending 7 ++ [OShift 5 5 3]) = Some t /\ lbalanced (lt_root t) /\ lheights (lt_root t) /\ lt_size t = 7%nat /\
  match lt_root t with LNode n _ _ => ln_sh n <> [] | LLeaf => False end.
Proof. eexists. split; [vm_compute; reflexivity|]. vm_compute. repeat split; repeat constructor. discriminate. Qed.

Theorem C48_lazy_refuted : exists (tr : list (iop nat)) t, calm tr /\ lt_run tr = Some t /\ lt_size t = 6%nat /\ ldepth (lt_root t) = 6%nat.
Proof.
  exists thinned. eexists. split.
  - split; [|left]; unfold thinned, ascending; apply Forall_app; (split; [apply Forall_map, Forall_forall; intros k _; cbn [sane growing]; exact Logic.I || lia|repeat (apply Forall_cons; [cbn; lia|]); apply Forall_nil]).
  - split; [vm_compute; reflexivity|]. vm_compute. auto.
Qed.
Print Assumptions C48_lazy_refuted.
