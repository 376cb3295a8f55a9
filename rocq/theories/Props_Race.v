(** C50: goroutines that read the positions of captures at the same time.  Only theorem statements; proofs are in
    Proof_Race*.v. *)
From Coq Require Import ZArith.
From Verif Require Import Base Model_Interval Spec_Interval Model_Detach Model_Race Spec_Race Proof_Race Proof_Race2 Proof_Race3.
Local Open Scope Z_scope.

(** a history with two values and two edits that the handles have not seen *)
Definition race_history : list (iop nat) :=
  [OAdd 0 5 8 1%nat; OAdd 0 20 24 2%nat; OShift 0 1 4; OShift 15 16 2].

(** ** C50 *)
(** Goroutines that ask for different handles get the right positions, in every order of their steps. *)
Theorem C50_apart_partial : forall {V} (tr : list (iop V)) t (hss : list (list (nat * Z))) sched, calm tr -> it_run tr = Some t ->
  Forall (Forall (fun '(h, p) => stands tr t h p)) hss -> apart hss ->
  forall i l ans, nth_error hss i = Some l -> nth_error (snd (race t (map (map fst) hss) sched)) i = Some (Ret ans) -> ans = map snd l.
Proof. exact @apart_right. Qed.
Print Assumptions C50_apart_partial.
Example C50_apart_case : exists t, calm race_history /\ it_run race_history = Some t /\
  stands race_history t 0 9 /\ stands race_history t 1 26 /\ apart [[(0%nat, 9)]; [(1%nat, 26); (1%nat, 26)]] /\
  snd (race t [[0]; [1; 1]]%nat (concat (repeat [0; 1]%nat 60))) = [Ret [9]; Ret [26; 26]].
Proof.
  eexists. split; [|split; [vm_compute; reflexivity|]].
  { split; [repeat (apply Forall_cons; [cbn; lia|]); apply Forall_nil|]. left. repeat (apply Forall_cons; [cbn; lia|]). apply Forall_nil. }
  split; [|split; [|split]].
  - exists [], 0, 5, 8, 1%nat, (tl race_history). eexists. split; [reflexivity|]. split; [intros []|]. split; [vm_compute; intuition discriminate|].
    split; [vm_compute; reflexivity|]. split; [reflexivity|]. split; [vm_compute; auto|reflexivity].
  - exists [OAdd 0 5 8 1%nat], 0, 20, 24, 2%nat, (skipn 2 race_history). eexists. split; [reflexivity|]. split; [vm_compute; intuition discriminate|]. split; [intros []|].
    split; [vm_compute; reflexivity|]. split; [reflexivity|]. split; [vm_compute; auto|reflexivity].
  - intros [|[|i]] [|[|j]] x y h a b N X Y Hx Hy; cbn in X, Y; try congruence; try (destruct i; discriminate); try (destruct j; discriminate);
      injection X as <-; injection Y as <-; cbn in Hx, Hy; intuition congruence.
  - vm_compute. reflexivity.
Qed.

(** If every handle was asked once since the last edit, the goroutines may share the handles: nothing is written, and
    the positions are right.  This holds after every history. *)
Theorem C50_asked : forall {V} (tr : list (iop V)) hs t hss sched m ps, it_run (tr ++ map OPos hs) = Some t ->
  Forall (fun h => snd (it_pos t h) <> None) hs -> Forall (fun l => incl l hs) hss -> race t hss sched = (m, ps) ->
  m = memory_of (t_root t) /\
  forall i l ans, nth_error hss i = Some l -> nth_error ps i = Some (Ret ans) -> map Some ans = map (fun h => snd (it_pos t h)) l.
Proof. exact @asked_right. Qed.
Print Assumptions C50_asked.
Example C50_asked_case : exists t, it_run (race_history ++ map OPos [0; 1]%nat) = Some t /\
  snd (it_pos t 0%nat) = Some 9 /\ snd (it_pos t 1%nat) = Some 26 /\
  snd (race t [[0; 1]; [1; 0]]%nat (concat (repeat [0; 1]%nat 9))) = [Ret [9; 26]; Ret [26; 9]].
Proof. eexists. split; [vm_compute; reflexivity|]. vm_compute. auto. Qed.

(** No goroutine waits for another one: with enough turns it ends. *)
Theorem C50_ends : forall {V} (t : itree V) hss, exists n, forall sched i, (i < List.length hss)%nat -> (n <= count_occ Nat.eq_dec sched i)%nat ->
  exists ans, nth_error (snd (race t hss sched)) i = Some (Ret ans).
Proof. exact @race_ends. Qed.
Print Assumptions C50_ends.

(** One goroutine alone does to the memory, step by step, what Model_Interval does to the tree. *)
Theorem C50_alone_partial : forall {V} (tr : list (iop V)) t h, calm tr -> it_run tr = Some t -> snd (it_pos t h) <> None ->
  let (m, p) := alone (memory_of (t_root t)) (p_pos (links_of (t_root t)) (t_shifts t) h) in
  snd (it_pos t h) = Some p /\
  (forall r f, m r f = memory_of (t_root (fst (it_pos t h))) r f) /\ (forall r, links_of (t_root (fst (it_pos t h))) r = links_of (t_root t) r).
Proof. exact @alone_right. Qed.
Print Assumptions C50_alone_partial.
Example C50_alone_case : exists t, it_run race_history = Some t /\
  snd (alone (memory_of (t_root t)) (p_pos (links_of (t_root t)) (t_shifts t) 0%nat)) = 9.
Proof. eexists. split; [vm_compute; reflexivity|]. vm_compute. reflexivity. Qed.

(** Two goroutines that ask for the same handle after an edit: one of them is told the position before the edit. *)
Theorem C50_stale_refuted : exists (tr : list (iop nat)) t h p sched, calm tr /\ it_run tr = Some t /\ stands tr t h p /\
  exists q, snd (race t [[h]; [h]] sched) = [Ret [p]; Ret [q]] /\ q <> p.
Proof.
  exists [OAdd 0 5 8 1%nat; OShift 0 1 4]. eexists. exists 0%nat, 9, ([0; 0; 0; 1; 1] ++ repeat 0 40)%nat.
  split; [split; [repeat (apply Forall_cons; [cbn; lia|]); apply Forall_nil|left; repeat (apply Forall_cons; [cbn; lia|]); apply Forall_nil]|].
  split; [vm_compute; reflexivity|]. split.
  - exists [], 0, 5, 8, 1%nat, [OShift 0 1 4]. eexists. split; [reflexivity|]. split; [intros []|]. split; [intros []|].
    split; [vm_compute; reflexivity|]. split; [reflexivity|]. split; [vm_compute; auto|reflexivity].
  - exists 5. split; [vm_compute; reflexivity|lia].
Qed.
Print Assumptions C50_stale_refuted.

(** Both of them can move the node: then the node stays at the wrong place, and a goroutine that asks later, alone, is
    told that place. *)
Theorem C50_twice_refuted : exists (tr : list (iop nat)) t h p sched, calm tr /\ it_run tr = Some t /\ stands tr t h p /\
  exists q m ps, race t [[h]; [h]] sched = (m, ps) /\ ps = [Ret [p]; Ret [q]] /\ q <> p /\
  snd (alone m (p_pos (links_of (t_root t)) (t_shifts t) h)) = q.
Proof.
  exists [OAdd 0 5 8 1%nat; OShift 0 1 4]. eexists. exists 0%nat, 9, ([0; 0; 1; 1] ++ repeat 0 40 ++ repeat 1 40)%nat.
  split; [split; [repeat (apply Forall_cons; [cbn; lia|]); apply Forall_nil|left; repeat (apply Forall_cons; [cbn; lia|]); apply Forall_nil]|].
  split; [vm_compute; reflexivity|]. split.
  - exists [], 0, 5, 8, 1%nat, [OShift 0 1 4]. eexists. split; [reflexivity|]. split; [intros []|]. split; [intros []|].
    split; [vm_compute; reflexivity|]. split; [reflexivity|]. split; [vm_compute; auto|reflexivity].
  - exists 13. do 2 eexists. split; [apply surjective_pairing|]. split; [vm_compute; reflexivity|]. split; [lia|]. vm_compute. reflexivity.
Qed.
Print Assumptions C50_twice_refuted.
