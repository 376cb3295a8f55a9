(** Property C26 for the handles of all values, also of those that are no longer in the tree. *)
From Coq Require Import ZArith Lia.
From Verif Require Import Base Model_Interval Spec_Interval Model_Detach Proof_Detach.
Local Open Scope Z_scope.

(** ** C26 *)
(** What is not covered: histories that are not calm.  There the handle may be wrong, see C26_refuted. *)
Theorem C26_untouched_partial : forall {V} (a b : list (iop V)) id low high v, calm (a ++ OAdd id low high v :: b) ->
  untouched low (high - low) b ->
  exists da d, dt_run a = Some da /\ dt_run (a ++ OAdd id low high v :: b) = Some d /\
    snd (dt_pos d (snd (it_add (dt_tree da) id low high v))) = Some (follow low b).
Proof. exact @untouched_handle. Qed.
Print Assumptions C26_untouched_partial.

(** the third value leaves the tree with the first edit, although that does not touch it; its handle follows the second *)
Definition lost_history : list (iop nat) := [OShift 10 11 2; OPos 2; OShift 0 1 4].
Example C26_untouched_case :
  calm ([OAdd 0 5 6 1%nat; OAdd 0 10 11 2%nat] ++ OAdd 0 20 21 3%nat :: lost_history) /\ untouched 20 (21 - 20) lost_history /\
  exists d, dt_run ([OAdd 0 5 6 1%nat; OAdd 0 10 11 2%nat] ++ OAdd 0 20 21 3%nat :: lost_history) = Some d /\
    ~ In 3%nat (it_values (dt_tree d)) /\ snd (dt_pos d 2) = Some 26.
Proof.
  split; [split; [repeat (apply Forall_cons; [cbn; lia|]); apply Forall_nil|left; repeat (apply Forall_cons; [cbn; lia|]); apply Forall_nil]|].
  split; [cbn; repeat split; lia|]. eexists. split; [vm_compute; reflexivity|]. split; [vm_compute; intuition discriminate|vm_compute; reflexivity].
Qed.

(** A value whose interval lies in that of a later value keeps its distance from it for as long as no edit touches the latter. *)
Theorem C26_together_partial : forall {V} (a b c : list (iop V)) id low high v id' low' high' v',
  calm ((a ++ OAdd id' low' high' v' :: b) ++ OAdd id low high v :: c) ->
  untouched low' (high' - low') b -> low <= follow low' b -> follow low' b + (high' - low') <= high -> untouched low (high - low) c ->
  exists da db d, dt_run a = Some da /\ dt_run (a ++ OAdd id' low' high' v' :: b) = Some db /\
    dt_run ((a ++ OAdd id' low' high' v' :: b) ++ OAdd id low high v :: c) = Some d /\
    exists p, snd (dt_pos d (snd (it_add (dt_tree db) id low high v))) = Some p /\
      snd (dt_pos d (snd (it_add (dt_tree da) id' low' high' v'))) = Some (p + (follow low' b - low)).
Proof. exact @together. Qed.
Print Assumptions C26_together_partial.
Example C26_together_case : calm (([OAdd 0 5 6 1%nat] ++ OAdd 0 10 12 2%nat :: [OShift 0 1 3]) ++ OAdd 1 11 20 3%nat :: [OShift 2 3 4]) /\
  untouched 10 (12 - 10) [OShift 0 1 3 : iop nat] /\ 11 <= follow 10 [OShift 0 1 3 : iop nat] /\
  follow 10 [OShift 0 1 3 : iop nat] + (12 - 10) <= 20 /\ untouched 11 (20 - 11) [OShift 2 3 4 : iop nat].
Proof.
  split; [split; [repeat (apply Forall_cons; [cbn; lia|]); apply Forall_nil|left; repeat (apply Forall_cons; [cbn; lia|]); apply Forall_nil]|].
  vm_compute. intuition discriminate.
Qed.

(** An edit that ends where the interval begins, or begins where it ends, only touches it.  The handle may then report
    the position of another value. *)
Theorem C26_touched_refuted : exists (a b : list (iop nat)) id low high v da d, calm (a ++ OAdd id low high v :: b) /\
  survives low (high - low) b /\ dt_run a = Some da /\ dt_run (a ++ OAdd id low high v :: b) = Some d /\
  snd (dt_pos d (snd (it_add (dt_tree da) id low high v))) = Some 20 /\ follow low b = 10.
Proof.
  exists [OAdd 0 5 6 1%nat], [OAdd 0 20 21 3%nat; OShift 11 12 0], 0, 10, 11, 2%nat. eexists. eexists.
  split; [split; [repeat (apply Forall_cons; [cbn; lia|]); apply Forall_nil|left; repeat (apply Forall_cons; [cbn; lia|]); apply Forall_nil]|].
  split; [cbn; unfold meets; repeat split; lia|]. split; [vm_compute; reflexivity|]. split; [vm_compute; reflexivity|]. vm_compute. auto.
Qed.
Print Assumptions C26_touched_refuted.

(** When several edits made the text shorter, two nodes may have the same key.  The edit at 10 then gives the key of a
    third node to the one that holds value 11 at 29: the handle of that value says 38, and the value is not found. *)
Definition same_key_history : list (iop nat) :=
  [OAdd 0 15 16 0%nat; OAdd 0 2 3 1%nat; OAdd 0 6 7 2%nat; OAdd 0 0 1 3%nat; OAdd 0 5 6 4%nat; OAdd 0 16 17 5%nat;
   OAdd 0 17 18 6%nat; OAdd 0 4 6 7%nat; OShift 0 1 27; OShift 34 38 (-4); OShift 31 33 (-2);
   OAdd 0 10 11 8%nat; OAdd 0 5 6 9%nat; OAdd 0 2 3 10%nat].
Theorem C26_refuted : exists (a b : list (iop nat)) id low high v ta t, Forall sane (a ++ OAdd id low high v :: b) /\
  untouched low (high - low) b /\ it_run a = Some ta /\ it_run (a ++ OAdd id low high v :: b) = Some t /\ In v (it_values t) /\
  snd (it_pos t (snd (it_add ta id low high v))) = Some 38 /\ follow low b = 29 /\ snd (it_find t id low) = None.
Proof.
  exists same_key_history, [OShift 10 11 0], 0, 29, 33, 11%nat. eexists. eexists.
  split; [unfold same_key_history; cbn [app]; repeat (apply Forall_cons; [cbn; lia|]); apply Forall_nil|].
  split; [cbn; lia|]. split; [vm_compute; reflexivity|]. split; [vm_compute; reflexivity|]. vm_compute. auto 20.
Qed.
Print Assumptions C26_refuted.
