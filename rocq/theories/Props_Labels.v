(** Property C61: goroutines compile patterns at the same time, and whatever was compiled before. *)
From Coq Require Import ZArith.
From Verif Require Import Base Model_Charset Model_Isa Model_Capture Model_Code Model_VM Model_Pattern Model_Table Model_Labels Spec_Peg Spec_Run Spec_Rounds Proof_Eval Proof_Labels.
Local Open Scope nat_scope.

(** whatever was compiled before (the counter of labels is [u] or [v]), the code is the same.
    Missing: what was compiled before may also have changed the counter of memo identifiers, on which the code of
    repeated memoized patterns depends (C61_again_refuted). *)
Theorem C61_before_partial : forall thr fuel p u v m c st, compile thr fuel p (CState u m) = COk c st ->
  exists c' st', compile thr fuel p (CState v m) = COk c' st' /\ encode c' = encode c.
Proof.
  intros thr fuel p u v m c st H. destruct (compile_any _ _ _ _ _ _ _ H) as (c0 & st0 & H0 & E0).
  destruct (compile_any0 _ v _ _ _ _ _ H0) as (c1 & st1 & H1 & E1). exists c1, st1. split; [exact H1|congruence].
Qed.
Print Assumptions C61_before_partial.
(** any interleaving of the accesses of any number of goroutines: a goroutine that got different labels gets
    the code it gets alone.
    Missing: the others (C61_race_refuted), and the counter of memo ids, which is raced in the same way. *)
Theorem C61_distinct_partial : forall thr fuel p u v m sched g c st,
  let ls := drawn g (label_run u sched) in
  compile_drawn thr (fun i => nth i ls 0) fuel p (CState 0 m) = COk c st ->
  cs_uniq st <= List.length ls -> NoDup ls ->
  exists c' st', compile thr fuel p (CState v m) = COk c' st' /\ encode c' = encode c.
Proof.
  intros thr fuel p u v m sched g c st ls H L N. destruct (drawn_same _ _ _ _ _ _ _ H) as (c0 & H0 & E0).
  - intros i j Hi Hj K. apply (proj1 (NoDup_nth ls 0) N); [lia|lia|exact K].
  - destruct (compile_any0 _ v _ _ _ _ _ H0) as (c1 & st1 & H1 & E1). exists c1, st1. split; [exact H1|congruence].
Qed.
Print Assumptions C61_distinct_partial.
(** ... and so does every goroutine if no two calls of NewLabel overlap, in whatever order the calls come *)
Theorem C61_apart_partial : forall thr fuel p u v m calls g c st,
  let ls := drawn g (label_run u (flat_map (fun k => [k; k; k]) calls)) in
  compile_drawn thr (fun i => nth i ls 0) fuel p (CState 0 m) = COk c st -> cs_uniq st <= List.length ls ->
  exists c' st', compile thr fuel p (CState v m) = COk c' st' /\ encode c' = encode c.
Proof. intros thr fuel p u v m calls g c st ls H L. eapply C61_distinct_partial; [exact H|exact L|apply apart_nodup]. Qed.
Print Assumptions C61_apart_partial.

(** (ab / cd) (ef / gh) *)
Definition two_choices : pattern := PSeq (PAlt (PLit [x61; x62]) (PLit [x63; x64])) (PAlt (PLit [x65; x66]) (PLit [x67; x68])).
Definition code_of (r : cres) : code := match r with COk c _ => match encode c with Some k => k | None => Code [] [] [] [] end | _ => Code [] [] [] [] end.
Definition matches (k : code) (s : list byte) : option bool :=
  match vm_exec 16 none_table no_check None 200 k s tt tt with Some (ROk o _) => Some (o_ok o) | _ => None end.
(** goroutines 0 and 1 take turns, call by call *)
Example C61_apart_ex :
  let ls := drawn 1 (label_run 7 (flat_map (fun k => [k; k; k]) [0; 1; 0; 0; 1; 1; 0; 1])) in
  ls = [9; 12; 13; 15] /\ exists c st, compile_drawn 100 (fun i => nth i ls 0) 20 two_choices (CState 0 0) = COk c st /\ cs_uniq st = 4 /\
  matches (code_of (COk c st)) [x61; x62; x65; x66] = Some true.
Proof. split; [vm_compute; reflexivity|]. eexists _, _. split; [vm_compute; reflexivity|]. split; vm_compute; reflexivity. Qed.
(** calls that overlap and still return different labels *)
Example C61_distinct_ex :
  let ls := drawn 0 (label_run 0 [0; 1; 0; 0; 0; 1; 1; 0; 0; 0; 0; 0; 0; 0; 0]) in NoDup ls /\ List.length ls = 4.
Proof. vm_compute. split; [repeat constructor; cbn; intuition discriminate|reflexivity]. Qed.

(** Two goroutines compile this pattern at the same time.  Goroutine 1 loads the counter, goroutine 0 gets two
    labels, goroutine 1 stores, and goroutine 0 gets the second label again: both goroutines compile without
    an error, but the first gets a program that rejects abef. *)
Definition bad_sched : list nat := [1] ++ repeat 0 6 ++ [1] ++ repeat 0 6 ++ repeat 1 10.
Theorem C61_race_refuted : exists thr fuel p u m sched s c0 st0 c1 st1,
  let ls g := drawn g (label_run u sched) in
  compile_drawn thr (fun i => nth i (ls 0) 0) fuel p (CState 0 m) = COk c0 st0 /\ cs_uniq st0 = List.length (ls 0) /\
  compile_drawn thr (fun i => nth i (ls 1) 0) fuel p (CState 0 m) = COk c1 st1 /\ cs_uniq st1 = List.length (ls 1) /\
  matches (code_of (compile thr fuel p (CState u m))) s = Some true /\
  matches (code_of (COk c0 st0)) s = Some false.
Proof.
  exists 100, 20, two_choices, 0, 0%Z, bad_sched, [x61; x62; x65; x66]. eexists _, _, _, _. cbv zeta.
  split; [vm_compute; reflexivity|]. split; [vm_compute; reflexivity|]. split; [vm_compute; reflexivity|]. split; [vm_compute; reflexivity|].
  split; vm_compute; reflexivity.
Qed.
Print Assumptions C61_race_refuted.

(** the identifiers that Memo gives out are different for all goroutines if no two calls overlap *)
Theorem C61_memo_partial : forall u calls, NoDup (map snd (k_out (memo_run u (flat_map (fun k => [k; k; k]) calls)))).
Proof. exact memo_nodup. Qed.
Print Assumptions C61_memo_partial.
(** Otherwise one goroutine can get an identifier twice.  Here it builds &m1 m2 with m1 for a and m2 for ab; the
    text is ab, and the memoized match of m1 is taken for one of m2. *)
Definition memo_sched : list nat := [1; 1] ++ repeat 0 6 ++ [1] ++ repeat 0 3.
Definition ahead (i j : nat) : pattern := PSeq (PAnd (PMemo (PLit [x61]) (Z.of_nat i))) (PMemo (PLit [x61; x62]) (Z.of_nat j)).
Definition length_of (k : code) (s : list byte) : option nat :=
  match vm_exec 16 (tree_table 0) no_check None 200 k s tt_new tt with Some (ROk o _) => Some (o_pos o) | _ => None end.
Theorem C61_memo_refuted : exists sched ids s, ids = memo_ids 0 (memo_run 0 sched) /\
  (forall i j, i <> j -> i < 3 -> j < 3 -> length_of (code_of (compile 100 20 (ahead i j) (CState 0 5))) s = Some 2) /\
  length_of (code_of (compile 100 20 (ahead (nth 1 ids 0) (nth 2 ids 0)) (CState 0 5))) s = Some 1.
Proof.
  exists memo_sched, (memo_ids 0 (memo_run 0 memo_sched)), [x61; x62]. split; [reflexivity|]. split; [|vm_compute; reflexivity].
  intros i j N I J. destruct i as [|[|[|]]]; [| | |lia]; (destruct j as [|[|[|]]]; [| | |lia]); try (destruct (N eq_refl)); vm_compute; reflexivity.
Qed.
Print Assumptions C61_memo_refuted.

(** A program that compiles (memo a)* again and again: it works 32767 times, and from then on Encode panics,
    because each compilation takes a new memo identifier and identifiers have 16 bits *)
Theorem C61_again_refuted : exists p, forall n, exists st c st',
  again 100 20 p n (CState 0 0) = Some st /\ compile 100 20 p st = COk c st' /\ (encode c = None <-> (32767 <= Z.of_nat n)%Z).
Proof. exists many. exact many_runs_out. Qed.
Print Assumptions C61_again_refuted.
