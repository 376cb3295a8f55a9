(** Properties C28 and C29: reading captures. *)
From Verif Require Import Base Model_Charset Model_Isa Model_Capture Model_Input Model_Code Model_VM Model_Pattern Spec_Peg Spec_Scope Spec_Run Spec_Props Proof_Capture Proof_Props3 Proof_Range.
Local Open Scope nat_scope.

(** C28: draining ChildIterator yields the proper captures below a capture, in order. *)
Theorem C28_iterate : forall c, exists F, forall fuel, F <= fuel -> iter_drain fuel (child_iterator c) = Some (proper_children c).
Proof. exact drain_spec. Qed.
Print Assumptions C28_iterate.
(** Child(n) is the n-th of them, nil past the end *)
Theorem C28_child : forall c n, exists F, forall fuel, F <= fuel -> cap_child fuel c n = Some (nth_error (proper_children c) n).
Proof. exact child_spec. Qed.
Print Assumptions C28_child.
(** NumChildren is their number *)
Theorem C28_number : forall c, num_children c = List.length (proper_children c).
Proof. exact num_spec. Qed.
Print Assumptions C28_number.
(** none of them is internal, and no capture gets lost *)
Theorem C28_proper : forall c, Forall (fun ch => cap_dummy ch = false) (proper_children c) /\ flat (cap_children c) = flat (proper_children c).
Proof. intros c. destruct (proper_flat c). auto. Qed.
Print Assumptions C28_proper.
(** internal nodes two levels deep, one of them empty *)
Definition ex_cap : capture :=
  Capture false 1 0 9 [Capture true 0 0 2 [Capture true 0 0 2 []; Capture true 0 0 2 [Capture false 2 0 2 []]]; Capture false 3 2 4 []; Capture true 0 6 1 [Capture false 4 6 1 [Capture true 0 6 0 []]]].
Example ex_iterate : option_map (map cap_id) (iter_drain 50 (child_iterator ex_cap)) = Some [2; 3; 4]%Z /\ num_children ex_cap = 3 /\
  option_map (option_map cap_id) (cap_child 50 ex_cap 2) = Some (Some 4%Z) /\ cap_child 50 ex_cap 3 = Some None.
Proof. repeat split; vm_compute; reflexivity. Qed.

(** C29: the captures of a successful run, for a pattern without And: siblings follow one another, children
    lie inside their parent, and all lie inside the matched prefix. *)
Theorem C29_ordered_partial : forall bufsz CS check s thr p code (cs0 : CS) f o st c, 0 < bufsz -> check_ok check s -> supported p -> compiled thr p code ->
  vm_exec bufsz none_table check None f code s tt cs0 = Some (ROk o st) -> o_ok o = true -> o_capt o = Some c -> no_and p ->
  in_order 0 (o_pos o) (flat1 c).
Proof. exact captures_ordered. Qed.
Print Assumptions C29_ordered_partial.
(** with And, they lie inside the input *)
Theorem C29_bounded_partial : forall bufsz CS check s thr p code (cs0 : CS) f o st c, 0 < bufsz -> check_ok check s -> supported p -> compiled thr p code ->
  vm_exec bufsz none_table check None f code s tt cs0 = Some (ROk o st) -> o_ok o = true -> o_capt o = Some c ->
  o_pos o <= List.length s /\ Forall (bounded (List.length s)) (flat1 c).
Proof. exact captures_bounded. Qed.
Print Assumptions C29_bounded_partial.
Definition no_check (k : nat) (cs : unit) (m s : list byte) (i : nat) (id fl : Z) : unit * option nat := (cs, None).
Definition ex_pat : pattern := PCap (PSeq (PCap (PLit [x61]) 2) (PStar (PCap (PLit [x62]) 3))) 1.
Definition ex_code : code := match compile 100 50 ex_pat (CState 0 0) with COk c _ => match encode c with Some k => k | None => Code [] [] [] [] end | _ => Code [] [] [] [] end.
Example ex_run : supported ex_pat /\ no_and ex_pat /\ compiled 100 ex_pat ex_code /\
  exists o st c, vm_exec 2 none_table no_check None 50 ex_code [x61; x62; x62; x63] tt tt = Some (ROk o st) /\ o_ok o = true /\ o_capt o = Some c /\
  flat1 c = [CNode 1 0 3 [CNode 2 0 1 []; CNode 3 1 1 []; CNode 3 2 1 []]].
Proof.
  split; [vm_compute; tauto|]. split; [vm_compute; tauto|]. split; [exists 50, (CState 0 0); do 2 eexists; split; [vm_compute; reflexivity|vm_compute; reflexivity]|].
  do 3 eexists. split; [vm_compute; reflexivity|]. split; [reflexivity|]. split; reflexivity.
Qed.
(** why And is excluded: the capture of a lookahead lies beyond the match *)
Definition ex_and : pattern := PAnd (PCap (PLit [x61]) 2).
Definition ex_and_code : code := match compile 100 50 ex_and (CState 0 0) with COk c _ => match encode c with Some k => k | None => Code [] [] [] [] end | _ => Code [] [] [] [] end.
Example ex_and_run : exists o st c, vm_exec 2 none_table no_check None 50 ex_and_code [x61] tt tt = Some (ROk o st) /\ o_ok o = true /\ o_pos o = 0 /\ o_capt o = Some c /\
  flat1 c = [CNode 2 0 1 []].
Proof. do 3 eexists. split; [vm_compute; reflexivity|]. split; [reflexivity|]. split; [reflexivity|]. split; reflexivity. Qed.

(** the capture that Exec returns, with any table, starts at 0 and is as long as the match *)
Theorem C29_root : forall bufsz T (ops : table_ops T) CS check f code s t (cs0 : CS) o st c,
  vm_exec bufsz ops check None f code s t cs0 = Some (ROk o st) -> o_capt o = Some c ->
  cap_start c = 0 /\ cap_len c = o_pos o.
Proof. exact exec_root. Qed.
Print Assumptions C29_root.
(** C37: the capture that ExecInterval returns covers the interval and all captures below it, at every depth *)
Theorem C37_range : forall bufsz CS check lo hi f code s (cs0 : CS) o st c, lo <= hi ->
  vm_exec bufsz none_table check (Some (lo, hi)) f code s tt cs0 = Some (ROk o st) -> o_capt o = Some c ->
  cap_start c <= lo /\ hi <= cap_end c /\ Forall (within (cap_start c) (cap_end c)) (flat1 c).
Proof. intros bufsz CS check lo hi f code s cs0 o st c H. apply interval_range. exact H. Qed.
Print Assumptions C37_range.
Example ex_range : exists o st c, vm_exec 2 none_table no_check (Some (2, 5)) 50 ex_code [x61; x62; x62; x63] tt tt = Some (ROk o st) /\ o_capt o = Some c /\
  cap_start c = 0 /\ cap_len c = 5 /\ flat1 c = [CNode 1 0 3 [CNode 3 2 1 []]].
Proof. do 3 eexists. split; [vm_compute; reflexivity|]. split; [reflexivity|]. repeat split. Qed.
