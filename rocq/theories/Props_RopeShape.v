(** Property C54: the leaves of a rope are short, its nodes long, and its depth. *)
From Coq Require Import ZArith Lia.
From Verif Require Import Base Model_Rope Spec_Rope Proof_Rope Spec_RopeShape Proof_RopeShape.
Local Open Scope nat_scope.

Definition o1 : opts := Opts 3 2 6 5 [x0a].
Definition abc (n : nat) : list byte := concat (repeat [x61; x62; x0a] n).
Lemma o1_limits : limits 3 o1.
Proof. unfold limits. cbn. lia. Qed.

(** ** C54 *)
(** no leaf is longer than SplitLen, if JoinLen is at most SplitLen + 1 for all the ropes used *)
Theorem C54_leaves : forall k r b, made (limits k) r b -> Forall (fun v => List.length v <= k) (leaves r) /\ concat (leaves r) = b.
Proof.
  exact (fun k r b M => conj (lf_leaves k r (made_lf k r b M)) (wfr_leaves (limits k) r b (made_wf (limits k) (fun o H => proj1 (proj1 H)) r b M))).
Qed.
Print Assumptions C54_leaves.
(** no inner node is shorter than JoinLen *)
Theorem C54_inner : forall r b, made splits r b ->
  Forall (fun n => o_joinlen (rp_opts n) <= S (o_split (rp_opts n)) -> o_joinlen (rp_opts n) <= rp_len n) (inner r).
Proof. exact (fun r b M => wfr_inner splits r b (made_wf splits (fun _ h => h) r b M)). Qed.
Print Assumptions C54_inner.
(** Each visits every node once, parents first *)
Theorem C54_each : forall A (fn : A -> rope -> A) r b a, made splits r b -> rp_each fn r a = Some (fold_left fn (nodes r) a).
Proof. exact (fun A fn r b a M => each_nodes splits A fn r b a (made_wf splits (fun _ h => h) r b M)). Qed.
Print Assumptions C54_each.
(** the depth of a new rope is at most twice the logarithm of the number of its chunks *)
Theorem C54_new : forall o b r, rp_new o b = Some r -> 2 ^ rdepth r <= (List.length b / o_split o + 1) * (List.length b / o_split o + 1).
Proof. exact new_depth. Qed.
Print Assumptions C54_new.

Definition get (x : option rope) : rope := match x with Some r => r | None => RNil o1 [] 0 lzero end.
Definition rope1 : rope := get (rp_insert (get (rp_new o1 (abc 5))) 4 (abc 1)).
Example C54_case : exists b, made (limits 3) rope1 b /\ List.length (leaves rope1) = 9 /\ List.length (inner rope1) = 8 /\ rdepth rope1 = 4.
Proof.
  eexists. split; [eapply (made_insert (limits 3) (get (rp_new o1 (abc 5))) (abc 5) 4 (abc 1)); [apply (made_new (limits 3) o1); [exact o1_limits|vm_compute; reflexivity]|vm_compute; repeat constructor|vm_compute; reflexivity]|].
  vm_compute. auto.
Qed.

(** Insert does not keep this depth: text typed at the end, one byte after the other, makes a list of leaves *)
Theorem C54_typed_refuted : forall o b, 3 <= o_split o -> o_joinlen o <= S (o_split o) ->
  exists r, typed o b = Some r /\ made (eq o) r b /\ List.length b <= S (rdepth r) * o_split o.
Proof. exact typed_deep. Qed.
Print Assumptions C54_typed_refuted.
(** Remove does not give back nodes: a text of JoinLen bytes can have any depth *)
Theorem C54_waste_refuted : forall o b k, 3 <= o_split o -> o_joinlen o <= S (o_split o) -> o_joinlen o <= k <= List.length b ->
  exists r r', typed o b = Some r /\ rp_remove r 0 (List.length b - k) = Some r' /\ made (eq o) r' (skipn (List.length b - k) b) /\
    rp_len r' = k /\ List.length b <= S (rdepth r') * o_split o.
Proof. exact typed_waste. Qed.
Print Assumptions C54_waste_refuted.
Example C54_typed_case : 3 <= o_split o1 /\ o_joinlen o1 <= S (o_split o1) /\ exists r, typed o1 (abc 7) = Some r /\ rdepth r = 9 /\ rp_len r = 21.
Proof. split; [cbn; lia|]. split; [cbn; lia|]. eexists. split; [vm_compute; reflexivity|]. vm_compute. auto. Qed.
