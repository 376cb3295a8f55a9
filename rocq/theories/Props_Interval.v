(** Properties C23 to C27: the interval maps. *)
From Coq Require Import ZArith Lia Permutation.
From Verif Require Import Base Model_Interval Spec_Interval Model_Array Proof_Interval4 Proof_Props4 Proof_Array.
Local Open Scope Z_scope.

(** ** Histories used in the examples *)
(** adds, lookups, a handle's position, an edit that grows the text, an edit without a shift *)
Definition grown : list (iop nat) :=
  [OAdd 0 10 14 1%nat; OAdd 0 2 3 2%nat; OAdd 0 10 12 3%nat; OAdd 1 10 11 4%nat; OAdd 0 20 25 5%nat; OFind 0 10; OPos 0;
   OShift 2 3 4; OAdd 0 3 4 6%nat; OPos 1; OShift 28 29 0; OFind 0 14].
(** a first edit that makes the text shorter *)
Definition shrunk : list (iop nat) :=
  [OAdd 0 10 14 1%nat; OAdd 0 2 3 2%nat; OAdd 0 30 32 3%nat; OPos 0; OShift 1 4 (-3); OPos 2; OAdd 0 6 9 4%nat; OShift 0 1 2; OPos 0].
Definition plain_history : list (iop nat) :=
  [OAdd 0 10 14 1%nat; OAdd 0 2 3 2%nat; OAdd 0 10 15 3%nat; OFind 0 10; OAdd 1 10 11 4%nat; OPos 0; OAdd 0 1 30 5%nat].

(** bytes are deleted one by one, and in between one is typed and a range is replaced by one that is a byte shorter *)
Definition deleted : list (iop nat) :=
  [OAdd 0 10 14 1%nat; OAdd 0 2 3 2%nat; OAdd 0 30 32 3%nat; OPos 0; OShift 20 21 (-1); OShift 19 20 (-1); OFind 0 28; OPos 2;
   OShift 16 19 (-1); OShift 5 6 1; OShift 4 5 (-1); OPos 2; OAdd 0 6 9 4%nat; OShift 0 1 (-1); OPos 0].

Ltac sane_tac := unfold grown, shrunk, plain_history, deleted; repeat (apply Forall_cons; [cbn; lia|]); apply Forall_nil.
Example grown_calm : calm grown.
Proof. split; [sane_tac|left; sane_tac]. Qed.
Example shrunk_calm : calm shrunk.
Proof.
  split; [sane_tac|]. right.
  exists [OAdd 0 10 14 1%nat; OAdd 0 2 3 2%nat; OAdd 0 30 32 3%nat; OPos 0], 1, 4, (-3), [OPos 2; OAdd 0 6 9 4%nat; OShift 0 1 2; OPos 0].
  split; [reflexivity|]. split; repeat (apply Forall_cons; [cbn; lia || tauto|]); apply Forall_nil.
Qed.
Example deleted_calm : calm deleted.
Proof. split; [sane_tac|left; sane_tac]. Qed.
Example plain_calm : calm plain_history /\ Forall (fun o => ~ is_shift o) plain_history.
Proof.
  split; [split; [sane_tac|left; sane_tac]|]. unfold plain_history. repeat (apply Forall_cons; [cbn; tauto|]). apply Forall_nil.
Qed.

(** ** C23 *)
(** removeOverlaps finishes on calm histories *)
Theorem C23_total : forall {V} (tr : list (iop V)), calm tr -> it_run tr <> None.
Proof. exact @p_total. Qed.
Print Assumptions C23_total.

(** FindLargest finds a value that was stored at (id, pos), the largest among the values that are still
    in the tree there, and nil only if none is. *)
Theorem C23_find_partial : forall {V} (tr : list (iop V)) t id pos, calm tr -> NoDup (added tr) -> it_run tr = Some t ->
  match snd (it_find t id pos) with
  | Some v => exists h, In (id, pos, h, v) (ref_run tr) /\ In v (it_values t) /\
      forall h' v', In (id, pos, h', v') (ref_run tr) -> In v' (it_values t) -> h' <= h
  | None => forall h v, In (id, pos, h, v) (ref_run tr) -> ~ In v (it_values t)
  end.
Proof. exact @p_find. Qed.
Print Assumptions C23_find_partial.
Example C23_find_case : exists t, it_run grown = Some t /\ snd (it_find t 0 14) = Some 1%nat /\ snd (it_find t 1 14) = Some 4%nat /\
  it_values t = [6; 1; 3; 4]%nat.
Proof. eexists. split; [vm_compute; reflexivity|]. vm_compute. auto. Qed.

(** without edits it is exactly the reference map *)
Theorem C23_plain : forall {V} (tr : list (iop V)) t id pos, calm tr -> Forall (fun o => ~ is_shift o) tr -> it_run tr = Some t ->
  match snd (it_find t id pos) with
  | Some v => exists h, In (id, pos, h, v) (ref_run tr) /\ forall h' v', In (id, pos, h', v') (ref_run tr) -> h' <= h
  | None => forall h v, ~ In (id, pos, h, v) (ref_run tr)
  end.
Proof. exact @p_find_plain. Qed.
Print Assumptions C23_plain.
Example C23_plain_case : exists t, it_run plain_history = Some t /\ snd (it_find t 0 10) = Some 3%nat /\ snd (it_find t 0 11) = None.
Proof. eexists. split; [vm_compute; reflexivity|]. vm_compute. auto. Qed.

(** the array implementation does it after any history *)
Theorem C23_array : forall {V} (tr : list (iop V)) id pos, Forall sane tr ->
  match ar_find (ar_run tr) id pos with
  | Some v => exists h, In (id, pos, h, v) (ref_run tr) /\ forall h' v', In (id, pos, h', v') (ref_run tr) -> h' <= h
  | None => forall h v, ~ In (id, pos, h, v) (ref_run tr)
  end.
Proof. exact @array_find. Qed.
Print Assumptions C23_array.
Example C23_array_case : ar_find (ar_run shrunk) 0 29 = Some 3%nat /\ ar_find (ar_run shrunk) 0 8 = Some 4%nat.
Proof. vm_compute. auto. Qed.

(** ** C24 *)
(** the history of the stale value: the last edit meets [30,32), where value 7 is then still found *)
Definition stale_history : list (iop nat) :=
  [OAdd 0 10 11 0%nat; OAdd 0 2 3 1%nat; OAdd 0 5 6 2%nat; OAdd 0 0 1 3%nat; OAdd 0 4 5 4%nat; OAdd 0 11 12 5%nat;
   OAdd 0 12 13 6%nat; OAdd 0 3 5 7%nat; OShift 0 1 27; OShift 33 36 (-3)].

Theorem C24_refuted : exists (tr : list (iop nat)) low high amt t v l h,
  Forall sane (tr ++ [OShift low high amt]) /\ it_run (tr ++ [OShift low high amt]) = Some t /\
  snd (it_find t 0 l) = Some v /\ In (0, l, h, v) (ref_run tr) /\ meets l h low high /\ l < low /\
  (forall l' h', In (0, l', h', v) (ref_run tr) -> l' = l /\ h' = h).
Proof.
  exists stale_history, 31, 32, 0. eexists. exists 7%nat, 30, 32.
  split; [unfold stale_history; cbn [app]; repeat (apply Forall_cons; [cbn; lia|]); apply Forall_nil|].
  split; [vm_compute; reflexivity|]. split; [vm_compute; reflexivity|].
  split; [vm_compute; tauto|]. split; [unfold meets; lia|]. split; [lia|].
  intros l' h' H. vm_compute in H. repeat (destruct H as [H|H]; [try discriminate; injection H as <- <-; auto|]). contradiction.
Qed.
Print Assumptions C24_refuted.

(** on calm histories nothing stale is left *)
Theorem C24_values_partial : forall {V} (tr : list (iop V)) low high amt t v, calm (tr ++ [OShift low high amt]) ->
  it_run (tr ++ [OShift low high amt]) = Some t -> In v (it_values t) ->
  exists id l h, In (id, l, h, v) (ref_run tr) /\ ~ meets l h low high.
Proof. exact @p_stale. Qed.
Print Assumptions C24_values_partial.

Theorem C24_find_partial : forall {V} (tr : list (iop V)) low high amt t id pos v, calm (tr ++ [OShift low high amt]) ->
  it_run (tr ++ [OShift low high amt]) = Some t -> snd (it_find t id pos) = Some v ->
  exists l h, In (id, l, h, v) (ref_run tr) /\ ~ meets l h low high /\ pos = (if low <=? l then l + amt else l).
Proof. exact @p_stale_find. Qed.
Print Assumptions C24_find_partial.
Example C24_case : calm (firstn 7 shrunk ++ [OShift 0 1 2]) /\
  exists t, it_run (firstn 7 shrunk ++ [OShift 0 1 2]) = Some t /\ snd (it_find t 0 29) = Some 3%nat.
Proof. split; [exact (calm_prefix (firstn 7 shrunk ++ [OShift 0 1 2]) (OPos 0) shrunk_calm)|]. eexists. split; [vm_compute; reflexivity|]. vm_compute. auto. Qed.

(** the array: exactly the values that do not meet the range stay, moved; C24 and C25 *)
Theorem C24_array : forall {V} (tr : list (iop V)),
  Permutation (map (fun s => (s_id s, s_low s, s_high s, s_val s)) (a_slots (ar_run tr))) (ref_run tr).
Proof. exact @run_perm. Qed.
Print Assumptions C24_array.

(** ** C25 *)
(** a value that no edit met is lost *)
Theorem C25_refuted : exists (tr : list (iop nat)) t low high v, Forall sane tr /\ it_run tr = Some t /\ In (0, low, high, v) (ref_run tr) /\
  (forall l h amt, In (OShift l h amt) tr -> amt = 0 /\ h < low) /\
  ~ In v (it_values t) /\ snd (it_find t 0 low) = None.
Proof.
  exists [OAdd 0 5 6 1%nat; OAdd 0 10 11 2%nat; OAdd 0 20 21 3%nat; OShift 10 11 0]. eexists. exists 20, 21, 3%nat.
  split; [repeat (apply Forall_cons; [cbn; lia|]); apply Forall_nil|].
  split; [vm_compute; reflexivity|]. split; [vm_compute; tauto|]. split; [|split; [vm_compute; intuition discriminate|vm_compute; reflexivity]].
  intros l h amt H. cbn in H. repeat (destruct H as [H|H]; [try discriminate; injection H as <- <- <-; lia|]). contradiction.
Qed.
Print Assumptions C25_refuted.

(** a value whose interval only touches the range is removed as well *)
Theorem C25_touching_refuted : exists (tr : list (iop nat)) t low high l h v, Forall sane tr /\ it_run (tr ++ [OShift low high 0]) = Some t /\
  In (0, l, h, v) (ref_run (tr ++ [OShift low high 0])) /\ h = low /\ ~ In v (it_values t).
Proof.
  exists [OAdd 0 5 10 1%nat]. eexists. exists 10, 11, 5, 10, 1%nat.
  split; [repeat (apply Forall_cons; [cbn; lia|]); apply Forall_nil|]. split; [vm_compute; reflexivity|]. split; [vm_compute; auto|]. split; [reflexivity|].
  vm_compute. tauto.
Qed.
Print Assumptions C25_touching_refuted.

(** the first edit, if it meets and touches nothing, keeps everything *)
Theorem C25_untouched_partial : forall {V} (tr : list (iop V)) low high amt t t', calm (tr ++ [OShift low high amt]) ->
  Forall (fun o => ~ is_shift o) tr -> Forall (fun '(_, l, h, _) => high < l \/ h < low) (ref_run tr) ->
  it_run tr = Some t -> it_run (tr ++ [OShift low high amt]) = Some t' -> it_values t' = it_values t.
Proof. exact @p_untouched. Qed.
Print Assumptions C25_untouched_partial.
Example C25_case : calm ([OAdd 0 10 14 1%nat; OAdd 0 2 3 2%nat] ++ [OShift 5 6 (-1)]) /\
  Forall (fun '(_, l, h, _) => 6 < l \/ h < 5) (ref_run [OAdd 0 10 14 1%nat; OAdd 0 2 3 2%nat]).
Proof.
  split.
  - split; [repeat (apply Forall_cons; [cbn; lia|]); apply Forall_nil|]. right.
    exists [OAdd 0 10 14 1%nat; OAdd 0 2 3 2%nat], 5, 6, (-1), []. split; [reflexivity|].
    split; [repeat (apply Forall_cons; [cbn; tauto|]); apply Forall_nil|]. constructor.
  - repeat (apply Forall_cons; [cbn; lia|]). apply Forall_nil.
Qed.

(** ** C26 *)
Theorem C26_handle_partial : forall {V} (a b : list (iop V)) id low high v ta t, calm (a ++ OAdd id low high v :: b) ->
  ~ In v (added a) -> ~ In v (added b) -> it_run a = Some ta -> it_run (a ++ OAdd id low high v :: b) = Some t ->
  In v (it_values t) -> snd (it_pos t (snd (it_add ta id low high v))) = Some (follow low b).
Proof. exact @p_handle. Qed.
Print Assumptions C26_handle_partial.
Example C26_case : exists ta t, it_run (firstn 2 shrunk) = Some ta /\ it_run shrunk = Some t /\ In 3%nat (it_values t) /\
  snd (it_pos t (snd (it_add ta 0 30 32 3%nat))) = Some 29 /\ follow 30 (skipn 3 shrunk) = 29.
Proof. eexists. eexists. split; [vm_compute; reflexivity|]. split; [vm_compute; reflexivity|]. vm_compute. auto 10. Qed.

Theorem C26_array : forall {V} (a b : list (iop V)) id low high v, survives low (high - low) b ->
  ar_pos (ar_run (a ++ OAdd id low high v :: b)) (snd (ar_add (ar_run a) id low high v)) = Some (follow low b).
Proof. exact @array_pos. Qed.
Print Assumptions C26_array.
Example C26_array_case : survives 30 2 (skipn 3 shrunk).
Proof. cbn. unfold meets. lia. Qed.

(** ** C27 *)
(** two values at the same place are counted once *)
Theorem C27_refuted : exists (tr : list (iop nat)) t, Forall sane tr /\ it_run tr = Some t /\ it_values t = [1; 2]%nat /\ it_size t = 1%nat.
Proof.
  exists [OAdd 0 5 6 1%nat; OAdd 0 5 7 2%nat]. eexists. split; [repeat (apply Forall_cons; [cbn; lia|]); apply Forall_nil|].
  split; [vm_compute; reflexivity|]. vm_compute. auto.
Qed.
Print Assumptions C27_refuted.

(** without edits the size is at most the number of values, and equal to it if no two are at the same
    place *)
Theorem C27_size_partial : forall {V} (tr : list (iop V)) t, calm tr -> Forall (fun o => ~ is_shift o) tr -> it_run tr = Some t ->
  (it_size t <= List.length (ref_run tr))%nat /\ (NoDup (map stored_key (ref_run tr)) -> it_size t = List.length (ref_run tr)).
Proof. exact @p_size. Qed.
Print Assumptions C27_size_partial.
Example C27_case : exists t, it_run plain_history = Some t /\ it_size t = 4%nat /\ List.length (ref_run plain_history) = 5%nat.
Proof. eexists. split; [vm_compute; reflexivity|]. vm_compute. auto. Qed.

Theorem C27_array : forall {V} (tr : list (iop V)), ar_size (ar_run tr) = List.length (ref_run tr).
Proof. intros V tr. unfold ar_size. rewrite <- (Permutation_length (run_perm tr)), map_length. reflexivity. Qed.
Print Assumptions C27_array.
