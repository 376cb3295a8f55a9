(** Property C42: captures are kept in slices, and slices share arrays. *)
From Coq Require Import ZArith.
From Verif Require Import Base Model_Charset Model_Isa Model_Capture Model_Code Model_Interval Model_Table Model_VM Model_Heap Model_Pattern Spec_Peg Spec_Scope Spec_Run Spec_Memo Spec_Heap Proof_Eval Proof_Main Proof_Props2 Proof_Memo Proof_Memo3 Proof_Heap3 Props_Memo.
Local Open Scope nat_scope.

(** C42: without memoization, a run of any bytecode on slices and one on lists stop together and a user
    sees the same outcome: appends never write where another slice can see it.  This is so however
    append grows arrays, and whatever earlier parses have left in the heap, which stays as it is: the
    trees returned earlier do not change. *)
Theorem C42_lists : forall grow bufsz CS check intrvl c f s h (cs : CS),
  match hvm_exec grow bufsz hnone_table check intrvl f c s h tt cs, vm_exec bufsz none_table check intrvl f c s tt cs with
  | None, None => True
  | Some HRCrash, Some RCrash => True
  | Some (HROk o hs), Some (ROk o' st) =>
      same_outcome (h_heap hs) o o' /\ h_cs hs = m_cs st /\ forall a, a < List.length h -> arr (h_heap hs) a = arr h a
  | _, _ => False
  end.
Proof. intros grow bufsz CS check intrvl c f s h cs. apply none_same. Qed.
Print Assumptions C42_lists.
(** hence the captures of a compiled pattern are those of the semantics *)
Theorem C42_result : forall grow bufsz CS check s thr p code h (cs0 : CS) r errs cs' f y,
  0 < bufsz -> check_ok check s -> supported p -> compiled thr p code ->
  peg s check [] p 0 ([], cs0) r (errs, cs') ->
  hvm_exec grow bufsz hnone_table check None f code s h tt cs0 = Some y ->
  exists o hs, y = HROk o hs /\ hagrees r (h_heap hs) o /\ ho_errs o = errs /\ h_cs hs = cs'.
Proof.
  intros grow bufsz CS check s thr p code h cs0 r errs cs' f y Hb Hk Hp Hc H Hy. pose proof (C42_lists grow bufsz CS check None code f s h cs0) as L. rewrite Hy in L.
  destruct (vm_exec bufsz none_table check None f code s tt cs0) as [y'|] eqn:E; [|destruct y; destruct L].
  destruct (exec_is bufsz Hb CS check s Hk thr p code None cs0 _ _ _ _ _ Hp Hc H E) as (o & st & -> & A & B & C).
  destruct y as [o1 hs|]; [|destruct L]. destruct L as (S & L & _). exists o1, hs. split; [reflexivity|].
  destruct o1 as [b1 p1 c1 e1], o as [b2 p2 c2 e2]. destruct S as (-> & -> & -> & S). split; [|split; [exact B|rewrite L; exact C]].
  cbn [hagrees]. destruct r as [|j ts|j]; cbn in A.
  - destruct A as [-> ->]. destruct c1; [destruct S|auto].
  - destruct A as (-> & -> & v & -> & A). split; [reflexivity|]. split; [reflexivity|]. destruct c1 as [c1|]; [|destruct S]. exists c1, v. auto.
  - exact A.
Qed.
Print Assumptions C42_result.

(** With a tree table, an entry keeps the slice of captures of the stack, and the stack goes on with
    the entry's slice.  The results are right if no memoized pattern gives more than two captures and
    nothing is repeated that is memoized, or if memoized patterns give no captures at all; and if append
    gives a slice of two elements an array of two elements, as Go's does.
    Missing: memoized patterns with more captures, for which it is false ([C21_alias_refuted]). *)
Theorem C42_memo_stops_partial : forall grow bufsz CS check thr threshold p code s h0 h t (cs0 : CS) r errs cs',
  tight2 grow -> 0 < bufsz -> check_ok check s -> supported p -> shareable thr check s p code -> memo_agree s check p -> memo_pure s check p ->
  hafter_runs grow bufsz check threshold p code s (h0, htt_new) (h, t) ->
  peg s check [] p 0 ([], cs0) r (errs, cs') ->
  exists f o hs, hvm_exec grow bufsz (htree_table threshold) check None f code s h t cs0 = Some (HROk o hs) /\
    hagrees r (h_heap hs) o /\ ho_errs o = errs /\ h_cs hs = cs'.
Proof.
  intros grow bufsz CS check thr threshold p code s h0 h t cs0 r errs cs' HG Hb Hk Hp Hc Ha Hpu Ht H.
  destruct (shareable_ready _ _ _ _ _ _ Hp Hc) as (M0 & Tl & R & F2 & F0).
  destruct (heap_runs bufsz Hb thr p code M0 Tl R threshold CS check s Hk Ha Hpu F2 F0 grow HG _ _ Ht _ (sound_new p M0 Tl CS check s h0)) as (F & _ & _ & S).
  destruct (heap_some bufsz Hb thr p code M0 Tl R threshold CS check s Hk Ha Hpu F2 F0 grow HG _ _ _ _ _ _ _ S H) as (f & o & hs & A & B & C & D & _). eauto 10.
Qed.
Print Assumptions C42_memo_stops_partial.
Theorem C42_memo_result_partial : forall grow bufsz CS check thr threshold p code s h0 h t (cs0 : CS) r errs cs' f y,
  tight2 grow -> 0 < bufsz -> check_ok check s -> supported p -> shareable thr check s p code -> memo_agree s check p -> memo_pure s check p ->
  hafter_runs grow bufsz check threshold p code s (h0, htt_new) (h, t) ->
  peg s check [] p 0 ([], cs0) r (errs, cs') ->
  hvm_exec grow bufsz (htree_table threshold) check None f code s h t cs0 = Some y ->
  exists o hs, y = HROk o hs /\ hagrees r (h_heap hs) o /\ ho_errs o = errs /\ h_cs hs = cs'.
Proof.
  intros grow bufsz CS check thr threshold p code s h0 h t cs0 r errs cs' f y HG Hb Hk Hp Hc Ha Hpu Ht H Hy.
  destruct (C42_memo_stops_partial _ _ _ _ _ _ _ _ _ _ _ _ _ _ _ _ HG Hb Hk Hp Hc Ha Hpu Ht H) as (f' & o & hs & A & B).
  exists o, hs. split; [exact (hrun_det _ _ _ _ _ _ _ _ Hy A)|exact B].
Qed.
Print Assumptions C42_memo_result_partial.
(** and later parses with the same table do not change a tree that was returned *)
Theorem C42_memo_kept_partial : forall grow bufsz CS check thr threshold p code s h0 h t (cs0 : CS) r w' f o hs h' t' c,
  tight2 grow -> 0 < bufsz -> check_ok check s -> supported p -> shareable thr check s p code -> memo_agree s check p -> memo_pure s check p ->
  hafter_runs grow bufsz check threshold p code s (h0, htt_new) (h, t) ->
  peg s check [] p 0 ([], cs0) r w' ->
  hvm_exec grow bufsz (htree_table threshold) check None f code s h t cs0 = Some (HROk o hs) ->
  hafter_runs grow bufsz check threshold p code s (h_heap hs, h_tbl hs) (h', t') ->
  ho_capt o = Some c -> forall n, view n h' c = view n (h_heap hs) c.
Proof.
  intros grow bufsz CS check thr threshold p code s h0 h t cs0 r [errs cs'] f o hs h' t' c HG Hb Hk Hp Hc Ha Hpu Ht H Hx Ht' Ec n.
  destruct (shareable_ready _ _ _ _ _ _ Hp Hc) as (M0 & Tl & R & F2 & F0).
  destruct (heap_runs bufsz Hb thr p code M0 Tl R threshold CS check s Hk Ha Hpu F2 F0 grow HG _ _ Ht _ (sound_new p M0 Tl CS check s h0)) as (F & _ & _ & S).
  destruct (heap_some bufsz Hb thr p code M0 Tl R threshold CS check s Hk Ha Hpu F2 F0 grow HG _ _ _ _ _ _ _ S H) as (f' & o' & hs' & A & _ & _ & _ & F' & _ & _ & S' & V).
  pose proof (hrun_det _ _ _ _ _ _ _ _ Hx A) as X. injection X as <- <-.
  destruct (heap_runs bufsz Hb thr p code M0 Tl R threshold CS check s Hk Ha Hpu F2 F0 grow HG _ _ Ht' _ S') as (F1 & _ & Ag & _). apply V; [exact Ec|exact Ag].
Qed.
Print Assumptions C42_memo_kept_partial.
(** the condition on the number of captures can be read off the memoized patterns *)
Theorem C42_few : forall CS check s p n,
  (forall id E q, memoized p id E q -> exists k, capt_bound q = Some k /\ k <= n) -> memo_few s (CS:=CS) check n p.
Proof. intros CS check s p n H. apply bound_few. exact H. Qed.
Print Assumptions C42_few.
Example go_tight : tight2 go_policy.
Proof. unfold tight2. vm_compute. lia. Qed.

(** a memoized pattern with two captures, used in a predicate and after it *)
Definition h_mm : pattern := PMemo (PSeq (PCap (PLit [x61]) 1) (PCap (PLit [x62]) 2)) 1.
Definition h_p : pattern := PSeq (PAnd (PCap (PSeq h_mm (PCap (PLit [x64]) 5)) 7)) (PCap (PSeq h_mm (PCap (PLit [x64]) 6)) 8).
Definition h_text : list byte := [x61; x62; x64].
Definition code_of (p : pattern) : code := match compile 100 100 p (CState 0 2) with COk c _ => match encode c with Some k => k | None => Code [] [] [] [] end | _ => Code [] [] [] [] end.
Lemma parts : forall E p E' q, part E p E' q -> (E = E' /\ p = q) \/ exists E1 p1, child E p E1 p1 /\ part E1 p1 E' q.
Proof. intros E p E' q H. inversion H; subst; [left; auto|right; eauto]. Qed.
Example h_memoized : forall id E q, memoized h_p id E q -> id = 1%Z /\ E = [] /\ q = PSeq (PCap (PLit [x61]) 1) (PCap (PLit [x62]) 2).
Proof.
  intros id E q H. unfold memoized in H.
  repeat match goal with
  | H : part _ _ _ _ |- _ => apply parts in H; destruct H as [[H1 H2]|(? & ? & H1 & H)]; [try discriminate H2; injection H2 as <- <-; subst; auto; fail|]
  | H : child _ _ _ _ |- _ => inversion H; clear H; subst
  end.
Qed.
Definition h_capt : list ctree := [CNode 7 0 3 [CNode 1 0 1 []; CNode 2 1 1 []; CNode 5 2 1 []]; CNode 8 0 3 [CNode 1 0 1 []; CNode 2 1 1 []; CNode 6 2 1 []]].
Example h_ok : supported h_p /\ shareable 100 no_check h_text h_p (code_of h_p) /\ memo_agree h_text no_check h_p /\ memo_pure h_text no_check h_p /\
  peg h_text no_check [] h_p 0 ([], tt) (RSucc 3 h_capt) ([], tt).
Proof.
  split; [split; [|split]; vm_compute; tauto|]. split; [|split; [|split]].
  - left. split.
    + exists 100, (CState 0 2). do 2 eexists. split; [|split; [vm_compute; reflexivity|split; [vm_compute; reflexivity|vm_compute; reflexivity]]]. intros id E q H. apply h_memoized in H. destruct H as [-> _]. cbn. lia.
    + apply C42_few. intros id E q H. apply h_memoized in H. destruct H as (_ & _ & ->). exists 2. split; [reflexivity|lia].
  - intros id E q E' q' H H'. apply h_memoized in H. apply h_memoized in H'. destruct H as (_ & -> & ->), H' as (_ & -> & ->). auto.
  - apply C21_pure. intros id E q E' q' H P. apply h_memoized in H. destruct H as (_ & -> & ->).
    repeat match goal with
    | H : part _ _ _ _ |- _ => apply parts in H; destruct H as [[H1 H2]|(? & ? & H1 & H)]; [subst; exact Logic.I|]
    | H : child _ _ _ _ |- _ => inversion H; clear H; subst
    end.
  - eapply (eval_sound _ _ _ 30). vm_compute. reflexivity.
Qed.
(** parsed twice with one table: the arrays are shared, and a user sees what the semantics says *)
Definition h_run (h : heap) (t : httable) : option (bool * nat * option (list ctree) * heap * httable) :=
  match hvm_exec go_policy 4 (htree_table 0) no_check None 100 (code_of h_p) h_text h t tt with
  | Some (HROk (HOutcome ok pos c _) st) => Some (ok, pos, match c with Some c => option_map flat1 (view 10 (h_heap st) c) | None => None end, h_heap st, h_tbl st)
  | _ => None
  end.
Definition h_after : heap * httable := match h_run [] htt_new with Some (_, _, _, h, t) => (h, t) | None => ([], htt_new) end.
Example h_once : match h_run [] htt_new with Some (ok, pos, c, _, _) => (ok, pos, c) = (true, 3, Some h_capt) | None => False end.
Proof. vm_compute. reflexivity. Qed.
Example h_again : match h_run (fst h_after) (snd h_after) with Some (ok, pos, c, _, _) => (ok, pos, c) = (true, 3, Some h_capt) | None => False end.
Proof. vm_compute. reflexivity. Qed.
Example h_runs : hafter_runs go_policy 4 no_check 0 h_p (code_of h_p) h_text ([], htt_new) h_after.
Proof.
  assert (X : match hvm_exec go_policy 4 (htree_table 0) no_check None 100 (code_of h_p) h_text [] htt_new tt with Some (HROk o st) => (h_heap st, h_tbl st) = h_after | _ => False end) by (vm_compute; reflexivity).
  destruct (hvm_exec _ _ _ _ _ _ _ _ _ _ _) as [[o st|]|] eqn:E; try contradiction. destruct h_ok as (_ & _ & _ & _ & P). eapply hruns_more; [exact P|exact E|]. rewrite X. apply hruns_none.
Qed.
(** a repetition of a memoized pattern without captures *)
Definition z_p : pattern := PCap (PSeq (PStar (PMemo (PSeq (PLit [x61]) (PLit [x62])) 1)) (PCap (PLit [x64]) 5)) 7.
Example z_memoized : forall id E q, memoized z_p id E q -> id = 1%Z /\ E = [] /\ q = PSeq (PLit [x61]) (PLit [x62]).
Proof.
  intros id E q H. unfold memoized in H.
  repeat match goal with
  | H : part _ _ _ _ |- _ => apply parts in H; destruct H as [[H1 H2]|(? & ? & H1 & H)]; [try discriminate H2; injection H2 as <- <-; subst; auto; fail|]
  | H : child _ _ _ _ |- _ => inversion H; clear H; subst
  end.
Qed.
Example z_ok : supported z_p /\ shareable 100 no_check h_text z_p (code_of z_p) /\ memo_agree h_text no_check z_p /\ memo_pure h_text no_check z_p /\
  peg h_text no_check [] z_p 0 ([], tt) (RSucc 3 [CNode 7 0 3 [CNode 5 2 1 []]]) ([], tt).
Proof.
  split; [split; [|split]; vm_compute; tauto|]. split; [|split; [|split]].
  - right. split.
    + exists 100, (CState 0 2). do 2 eexists. split; [|split; [vm_compute; reflexivity|vm_compute; reflexivity]]. intros id E q H. apply z_memoized in H. destruct H as [-> _]. cbn. lia.
    + apply C42_few. intros id E q H. apply z_memoized in H. destruct H as (_ & _ & ->). exists 0. split; [reflexivity|lia].
  - intros id E q E' q' H H'. apply z_memoized in H. apply z_memoized in H'. destruct H as (_ & -> & ->), H' as (_ & -> & ->). auto.
  - apply C21_pure. intros id E q E' q' H P. apply z_memoized in H. destruct H as (_ & -> & ->).
    repeat match goal with
    | H : part _ _ _ _ |- _ => apply parts in H; destruct H as [[H1 H2]|(? & ? & H1 & H)]; [subst; exact Logic.I|]
    | H : child _ _ _ _ |- _ => inversion H; clear H; subst
    end.
  - eapply (eval_sound _ _ _ 30). vm_compute. reflexivity.
Qed.

(** C21 and C42 are false as they stand: with a memoized pattern of three captures the array of an
    entry's slice has room for a fourth, which belongs to both the capture around the first use of the
    entry and that around the second.  The second writes 6 where the first has its 5. *)
Definition a_mm : pattern := PMemo (PSeq (PCap (PLit [x61]) 1) (PSeq (PCap (PLit [x62]) 2) (PCap (PLit [x63]) 3))) 1.
Definition a_p : pattern := PSeq (PAnd (PCap (PSeq a_mm (PCap (PLit [x64]) 5)) 7)) (PCap (PSeq a_mm (PCap (PLit [x64]) 6)) 8).
Definition a_text : list byte := [x61; x62; x63; x64].
Definition a_abc : list ctree := [CNode 1 0 1 []; CNode 2 1 1 []; CNode 3 2 1 []].
Definition a_meant : list ctree := [CNode 7 0 4 (a_abc ++ [CNode 5 3 1 []]); CNode 8 0 4 (a_abc ++ [CNode 6 3 1 []])].
Definition a_shown : list ctree := [CNode 7 0 4 (a_abc ++ [CNode 6 3 1 []]); CNode 8 0 4 (a_abc ++ [CNode 6 3 1 []])].
Theorem C21_alias_refuted : exists p code s r o hs c v,
  supported p /\ compiled_memo 100 p code /\ memo_agree s no_check p /\ memo_pure s no_check p /\
  peg s no_check [] p 0 ([], tt) r ([], tt) /\
  hvm_exec go_policy 4096 (htree_table 0) no_check None 200 code s [] htt_new tt = Some (HROk o hs) /\
  ho_capt o = Some c /\ sees (h_heap hs) c v /\
  r = RSucc 4 a_meant /\ flat1 v = a_shown /\
  ~ hagrees r (h_heap hs) o.
Proof.
  assert (M : forall id E q, memoized a_p id E q -> id = 1%Z /\ E = [] /\ q = PSeq (PCap (PLit [x61]) 1) (PSeq (PCap (PLit [x62]) 2) (PCap (PLit [x63]) 3))).
  { intros id E q H. unfold memoized in H.
    repeat match goal with
    | H : part _ _ _ _ |- _ => apply parts in H; destruct H as [[H1 H2]|(? & ? & H1 & H)]; [try discriminate H2; injection H2 as <- <-; subst; auto; fail|]
    | H : child _ _ _ _ |- _ => inversion H; clear H; subst
    end. }
  assert (X : match hvm_exec go_policy 4096 (htree_table 0) no_check None 200 (code_of a_p) a_text [] htt_new tt with
    | Some (HROk o st) => match ho_capt o with Some c => match view 10 (h_heap st) c with Some v => flat1 v = a_shown | None => False end | None => False end
    | _ => False end) by (vm_compute; reflexivity).
  destruct (hvm_exec _ _ _ _ _ _ _ _ _ _ _) as [[o hs|]|] eqn:E; try contradiction. destruct (ho_capt o) as [c|] eqn:Ec; [|contradiction].
  destruct (view 10 (h_heap hs) c) as [v|] eqn:Ev; [|contradiction].
  exists a_p, (code_of a_p), a_text, (RSucc 4 a_meant), o, hs, c, v.
  split; [split; [|split]; vm_compute; tauto|].
  split; [exists 100, (CState 0 2); do 2 eexists; split; [|split; [vm_compute; reflexivity|vm_compute; reflexivity]]; intros id E0 q H; apply M in H; destruct H as [-> _]; cbn; lia|].
  split; [intros id E0 q E' q' H H'; apply M in H; apply M in H'; destruct H as (_ & -> & ->), H' as (_ & -> & ->); auto|].
  split.
  { apply C21_pure. intros id E0 q E' q' H P. apply M in H. destruct H as (_ & -> & ->).
    repeat match goal with
    | H : part _ _ _ _ |- _ => apply parts in H; destruct H as [[H1 H2]|(? & ? & H1 & H)]; [subst; exact Logic.I|]
    | H : child _ _ _ _ |- _ => inversion H; clear H; subst
    end. }
  split; [eapply (eval_sound _ _ _ 30); vm_compute; reflexivity|].
  split; [exact E|]. split; [exact Ec|]. split; [exists 10; exact Ev|]. split; [reflexivity|]. split; [exact X|].
  destruct o as [b p0 c1 e]. cbn in Ec. subst c1. intros (_ & _ & c0 & v' & E1 & (n & V) & D). injection E1 as <-.
  apply Proof_Heap.view_mono with (m := n + 10) in V; [|lia]. apply Proof_Heap.view_mono with (m := n + 10) in Ev; [|lia]. rewrite Ev in V. injection V as <-.
  rewrite X in D. discriminate D.
Qed.
Print Assumptions C21_alias_refuted.
