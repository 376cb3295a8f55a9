(** The order of the operations is the order in which each goroutine does them. *)
From Coq Require Import ZArith.
From Verif Require Import Base Model_Charset Model_Isa Model_Capture Model_Input Model_Code Model_VM Model_Table Model_Share Proof_Share Proof_Share3.
Local Open Scope nat_scope.

Section Order.
Variable bufsz : nat.
Variable CS : Type.
Variable check : nat -> CS -> list byte -> list byte -> nat -> Z -> Z -> CS * option nat.
Variable threshold : Z.
Variable code : code.
Variable s : list byte.
Variable t : ttable.

(** the log grows, and the table is what the operations in the log make of it *)
Definition goes (x y : shared) : Prop := exists l, sh_log y = sh_log x ++ l /\ sh_tbl y = acts_do threshold (sh_tbl x) l.
Lemma acts_app : forall l m u, acts_do threshold u (l ++ m) = acts_do threshold (acts_do threshold u l) m.
Proof. intros. apply fold_left_app. Qed.
Lemma go_refl : forall x, goes x x.
Proof. intro x. exists []. split; [symmetry; apply app_nil_r|reflexivity]. Qed.
Lemma go_trans : forall x y z, goes x y -> goes y z -> goes x z.
Proof. intros x y z (l & H & T) (m & K & U). exists (l ++ m). split; [rewrite K, H; symmetry; apply app_assoc|]. rewrite acts_app, <- T. exact U. Qed.
Lemma go_lock : forall x, goes x (sh_lock threshold x).
Proof. intro x. unfold sh_lock. destruct (sh_next x) as [|l n]; [apply go_refl|]. exists l. split; reflexivity. Qed.
Lemma go_get : forall me x id pos, goes x (snd (t_get (shared_table threshold me) x id pos)).
Proof.
  intros me x id pos. eapply go_trans; [apply go_lock|]. cbn [shared_table t_get]. destruct (tt_get (sh_tbl (sh_lock threshold x)) id pos) as [e u] eqn:E.
  exists [(me, TGet id pos)]. split; [reflexivity|]. cbn. rewrite E. reflexivity.
Qed.
Lemma go_put : forall me x id pos len e c cs, goes x (t_put (shared_table threshold me) x id pos len e c cs).
Proof. intros. eapply go_trans; [apply go_lock|]. exists [(me, TPut id pos len e c cs)]. split; reflexivity. Qed.

Definition total (C : list (list act)) : nat := fold_right (fun c n => S (List.length c) + n) 0 C.
Lemma total_others : forall me l, total (others me l) = S (List.length l) /\ others me l <> [].
Proof.
  intros me. induction l as [|a l [IH N]]; [split; [reflexivity|discriminate]|]. cbn [others List.length]. destruct (fst a =? me).
  - split; [|discriminate]. cbn [total fold_right List.length]. fold (total (others me l)). rewrite IH. reflexivity.
  - destruct (others me l) as [|c C]; [contradiction|]. split; [|discriminate]. cbn [total fold_right List.length] in *. lia.
Qed.
Lemma others_own : forall me o l1 l2, others me (l1 ++ (me, o) :: l2) = others me l1 ++ others me l2.
Proof.
  intros me o. induction l1 as [|a l1 IH]; intro l2; cbn [others app]; [cbn [fst]; rewrite Nat.eqb_refl; reflexivity|]. rewrite IH.
  destruct (fst a =? me); [reflexivity|]. destruct (total_others me l1) as [_ N]. destruct (others me l1) as [|c C]; [contradiction|reflexivity].
Qed.

(** two goroutines' views with the same next operations, until the log has [k] of them *)
Definition same (k : nat) (x y : shared) : Prop :=
  sh_tbl x = sh_tbl y /\ sh_log x = sh_log y /\ exists C A B, sh_next x = C ++ A /\ sh_next y = C ++ B /\ k <= List.length (sh_log x) + total C.
Definition past (k : nat) (x y : shared) : Prop :=
  firstn k (sh_log x) = firstn k (sh_log y) /\ k <= List.length (sh_log x) /\ k <= List.length (sh_log y).
Lemma past_mono : forall k x y x' y', past k x y -> goes x x' -> goes y y' -> past k x' y'.
Proof.
  intros k x y x' y' (A & B & C) (l & E & _) (m & F & _). unfold past. rewrite E, F, !firstn_app, !app_length.
  replace (k - List.length (sh_log x)) with 0 by lia. replace (k - List.length (sh_log y)) with 0 by lia. rewrite A. split; [reflexivity|lia].
Qed.
Lemma same_lock : forall k x y, same k x y -> past k x y \/
  (sh_tbl (sh_lock threshold x) = sh_tbl (sh_lock threshold y) /\ sh_log (sh_lock threshold x) = sh_log (sh_lock threshold y) /\
   exists C A B, sh_next (sh_lock threshold x) = C ++ A /\ sh_next (sh_lock threshold y) = C ++ B /\ k <= S (List.length (sh_log (sh_lock threshold x))) + total C).
Proof.
  intros k x y (T & L & C & A & B & HA & HB & K). destruct C as [|c C].
  - left. cbn in K. rewrite Nat.add_0_r in K. unfold past. rewrite <- L. auto.
  - right. unfold sh_lock. rewrite HA, HB. cbn [app sh_tbl sh_log sh_next]. rewrite T, L. split; [reflexivity|]. split; [reflexivity|].
    exists C, A, B. split; [reflexivity|]. split; [reflexivity|]. rewrite app_length. cbn [total fold_right] in K. fold (total C) in K. rewrite L in K. lia.
Qed.
Lemma same_get : forall me k x y id pos, same k x y ->
  (fst (t_get (shared_table threshold me) x id pos) = fst (t_get (shared_table threshold me) y id pos) /\
   same k (snd (t_get (shared_table threshold me) x id pos)) (snd (t_get (shared_table threshold me) y id pos))) \/
  past k (snd (t_get (shared_table threshold me) x id pos)) (snd (t_get (shared_table threshold me) y id pos)).
Proof.
  intros me k x y id pos H. apply same_lock in H. destruct H as [H|(T & L & C & A & B & HA & HB & K)]; [right; eapply past_mono; [exact H|apply go_get|apply go_get]|left].
  cbn [shared_table t_get]. rewrite <- T. destruct (tt_get (sh_tbl (sh_lock threshold x)) id pos) as [e u]. cbn [fst snd]. split; [reflexivity|].
  split; [reflexivity|]. cbn [sh_log sh_next]. split; [rewrite L; reflexivity|]. exists C, A, B. split; [exact HA|]. split; [exact HB|]. rewrite app_length. cbn [List.length]. lia.
Qed.
Lemma same_put : forall me k x y id pos len e c cs, same k x y ->
  same k (t_put (shared_table threshold me) x id pos len e c cs) (t_put (shared_table threshold me) y id pos len e c cs) \/
  past k (t_put (shared_table threshold me) x id pos len e c cs) (t_put (shared_table threshold me) y id pos len e c cs).
Proof.
  intros me k x y id pos len e c cs H. apply same_lock in H. destruct H as [H|(T & L & C & A & B & HA & HB & K)]; [right; eapply past_mono; [exact H|apply go_put|apply go_put]|left].
  cbn [shared_table t_put]. split; [cbn [sh_tbl]; rewrite T; reflexivity|]. cbn [sh_log sh_next]. split; [rewrite L; reflexivity|]. exists C, A, B. split; [exact HA|]. split; [exact HB|]. rewrite app_length. cbn [List.length]. lia.
Qed.

Variable cs : nat -> CS.
Lemma il_own : forall l l1 me o l2, interleaving bufsz check threshold code s t cs l -> l = l1 ++ (me, o) :: l2 ->
  exists n, firstn (S (List.length l1)) (sh_log (m_tbl (state_after (vm_step bufsz (shared_table threshold me) check None code) n
      (init_state bufsz (shared_table threshold me) None s (view me t l1) (cs me))))) = l1 ++ [(me, o)].
Proof.
  intros l l1 me o l2 H. revert l2. induction H as [|l me' o' n H IH Hl]; intros l2 E; [destruct l1; discriminate|].
  destruct l2 as [|z l2] using rev_ind.
  - apply app_inj_tail in E. destruct E as [<- E]. injection E as -> ->. exists n. exact Hl.
  - clear IHl2. rewrite app_comm_cons, app_assoc in E. apply app_inj_tail in E. destruct E as [E _]. exact (IH l2 E).
Qed.
Lemma own_order : forall l l1 me o l2 f out st, interleaving bufsz check threshold code s t cs l -> l = l1 ++ (me, o) :: l2 ->
  vm_exec bufsz (shared_table threshold me) check None f code s (view me t l) (cs me) = Some (ROk out st) ->
  exists m, sh_log (m_tbl st) = l1 ++ (me, o) :: m.
Proof.
  intros l l1 me o l2 f out st H E R. destruct (il_own l l1 me o l2 H E) as (n & Hn).
  pose proof (Q_after bufsz shared (shared_table threshold me) CS check goes go_refl go_trans (go_get me) (fun t id pos len e c cs _ => go_put me t id pos len e c cs) (same (S (List.length l1))) (past (S (List.length l1)))
    (past_mono _) (same_get me _) (same_put me _) None code n
    (init_state bufsz (shared_table threshold me) None s (view me t l1) (cs me)) (init_state bufsz (shared_table threshold me) None s (view me t l) (cs me))) as K.
  pose proof (R_run bufsz shared (shared_table threshold me) CS check goes go_refl go_trans (go_get me) (fun t id pos len e c cs _ => go_put me t id pos len e c cs) None code f _ _ _ R n) as (m & G & _).
  assert (P : firstn (S (List.length l1)) (sh_log (m_tbl (state_after (vm_step bufsz (shared_table threshold me) check None code) n
      (init_state bufsz (shared_table threshold me) None s (view me t l) (cs me))))) = l1 ++ [(me, o)]).
  { destruct K as [(y & K & Y)|(K & _)].
    - left. exists (view me t l). split; [reflexivity|]. split; [reflexivity|]. split; [reflexivity|]. exists (others me l1), [], (others me l2).
      cbn [init_state m_tbl view sh_next sh_log List.length]. split; [symmetry; apply app_nil_r|]. split; [rewrite E; apply others_own|]. rewrite (proj1 (total_others me l1)). apply Nat.le_refl.
    - rewrite K. cbn [set_tbl m_tbl]. destruct Y as (_ & <- & _). exact Hn.
    - rewrite <- K. exact Hn. }
  rewrite <- (firstn_skipn (S (List.length l1)) (sh_log (m_tbl (state_after _ n (init_state bufsz (shared_table threshold me) None s (view me t l) (cs me)))))), P in G.
  rewrite G. eexists. rewrite <- !app_assoc. reflexivity.
Qed.
Lemma own_table : forall l me f out st,
  vm_exec bufsz (shared_table threshold me) check None f code s (view me t l) (cs me) = Some (ROk out st) ->
  sh_tbl (m_tbl st) = acts_do threshold t (sh_log (m_tbl st)).
Proof.
  intros l me f out st R.
  pose proof (R_run bufsz shared (shared_table threshold me) CS check goes go_refl go_trans (go_get me) (fun t id pos len e c cs _ => go_put me t id pos len e c cs) None code f _ _ _ R 0) as (m & G & U).
  cbn [state_after init_state m_tbl view sh_log sh_tbl app] in *. rewrite G. exact U.
Qed.
End Order.
