(** Several goroutines with one table. *)
From Coq Require Import ZArith.
From Verif Require Import Base Model_Charset Model_Isa Model_Capture Model_Input Spec_Input Model_Code Model_VM Model_Pattern Spec_Peg Spec_Scope Spec_Run Proof_Eval Proof_Input Proof_Get Proof_Inline Proof_Sim Proof_Optimize Proof_Encode Proof_Codegen Proof_Machine Proof_Frag Proof_Diverge Proof_Compile Proof_Emit Proof_Main Model_Interval Spec_Interval Proof_Interval4 Model_Table Spec_Memo Proof_Memo Proof_Memo2 Proof_Memo3 Proof_Memo4 Model_Share Proof_Share.
Local Open Scope nat_scope.
Arguments Nat.max : simpl never.

(* ---------- valid operations ---------- *)
Section Share.
Variable bufsz : nat.
Hypothesis Hbuf : 0 < bufsz.
Variables (thr : nat) (p : pattern) (code : code) (M0 : Z) (Tl : list tent).
Hypothesis HR : ready thr p code M0 Tl.
Variable threshold : Z.
Variable CS : Type.
Variable check : nat -> CS -> list byte -> list byte -> nat -> Z -> Z -> CS * option nat.
Variable s : list byte.
Hypothesis Hck : check_ok check s.
Hypothesis HA : memo_agree s check p.
Hypothesis HP : memo_pure s check p.
Notation TI := (TI p M0 Tl CS check s false).
Notation TS t := (TI t 0).
Definition okop (o : top) : Prop := forall t, TS t -> TS (top_do threshold t o).
Definition okacts (l : list act) : Prop := Forall (fun a => okop (snd a)) l.
Definition TX (x : shared) (F : nat) : Prop := TS (sh_tbl x) /\ okacts (sh_log x) /\ Forall okacts (sh_next x).

Lemma TS_F : forall t F, TS t -> TI t F.
Proof. intros t F H. eapply TI_mono; [exact H|lia]. Qed.
Lemma acts_ok : forall l t, okacts l -> TS t -> TS (acts_do threshold t l).
Proof. induction l as [|a l IH]; intros t H Ht; [exact Ht|]. inversion H; subst. cbn [acts_do fold_left]. apply IH; auto. Qed.
Lemma lock_ok : forall x F, TX x F -> TX (sh_lock threshold x) F.
Proof.
  intros x F (A & B & C). unfold sh_lock. destruct (sh_next x) as [|l next] eqn:E; [split; [exact A|]; split; [exact B|rewrite E; exact C]|].
  inversion C; subst. split; [apply acts_ok; assumption|]. split; [apply Forall_app; auto|assumption].
Qed.
Lemma okop_get : forall id i, i <= List.length s -> okop (TGet id i).
Proof. intros id i Hi t Ht. apply (H_sync p M0 Tl CS check s false threshold t 0 id i Ht Hi). Qed.
Lemma TX_put : forall me x F id i len e c cs, TX x F -> okop (TPut id i len e c cs) -> TX (t_put (shared_table threshold me) x id i len e c cs) F.
Proof.
  intros me x F id i len e c cs H O. apply lock_ok in H. destruct H as (A & B & C). cbn [shared_table t_put].
  split; [apply (O _ A)|]. split; [|exact C]. apply Forall_app. split; [exact B|]. constructor; [exact O|constructor].
Qed.
Lemma TX_get : forall me x F id i, TX x F -> i <= List.length s -> TX (snd (t_get (shared_table threshold me) x id i)) F.
Proof.
  intros me x F id i H Hi. apply lock_ok in H. destruct H as (A & B & C). cbn [shared_table t_get]. pose proof (okop_get id i Hi _ A) as G. cbn [top_do] in G.
  destruct (tt_get (sh_tbl (sh_lock threshold x)) id i) as [e t]. cbn [snd] in *. split; [exact G|]. split; [|exact C]. apply Forall_app. split; [exact B|]. constructor; [apply okop_get; exact Hi|constructor].
Qed.
Lemma get_fst : forall me x id i, fst (t_get (shared_table threshold me) x id i) = fst (t_get (tree_table threshold) (sh_tbl (sh_lock threshold x)) id i).
Proof. intros me x id i. cbn [shared_table t_get tree_table]. destruct (tt_get (sh_tbl (sh_lock threshold x)) id i). reflexivity. Qed.

Lemma thread_some : forall me x cs0 r errs cs', TX x 0 -> peg s check [] p 0 ([], cs0) r (errs, cs') ->
  exists f o st, vm_exec bufsz (shared_table threshold me) check None f code s x cs0 = Some (ROk o st) /\
    agrees None r o /\ o_errs o = errs /\ m_cs st = cs' /\ exists F, TX (m_tbl st) F.
Proof.
  intros me x cs0 r errs cs' Ht Hr. destruct HR as [R1 R2 R3 (c & l & lo & hi & HC & HL & HS & HE)].
  destruct (eval_complete _ _ _ _ _ _ _ _ _ Hr) as (n & y & Hn).
  pose proof (soft_agree p M0 CS check s HA) as SA. pose proof (soft_pure p M0 CS check s HP) as SP.
  edestruct (run_code bufsz Hbuf shared (shared_table threshold me) CS check None s False (False_ind _) thr (MOK p M0) (tin Tl) Hck (XB false)) with (TI := TX) (t := x) (w := ([], cs0) : world CS)
    as (f & o & st & R & Q1 & Q2 & Q3 & Q4);
    [apply XB_mono|apply XB_down|apply XB_max|apply XB_le|intros t F F' H _; exact H|intros; apply TX_get; assumption| | | | | |exact HC|exact HL|exact HS|apply any1_notest; apply (sh_any _ _ HS)|exact HE|exact Hn|reflexivity|exact Ht|].
  - intros tbl F id E q i w e HX HM Hi Hg. rewrite get_fst in Hg. apply lock_ok in HX. destruct HX as (A & _). eapply H_get; [apply TS_F; exact A|exact HM|exact Hi|exact Hg].
  - intros tbl F id E q i n0 w j ts w' x0 cs HX HM Hi Hev HB Hc. apply TX_put; [exact HX|]. intros t Hs. eapply TS_any. cbn [top_do]. eapply (H_put_ok p M0 Tl R2 CS check s false SA SP threshold t F); try eassumption. apply TS_F. exact Hs.
  - intros tbl F id E q i n0 w w' x0 pos HX HM Hi Hev HB. apply TX_put; [exact HX|]. intros t Hs. eapply TS_any. cbn [top_do]. eapply (H_put_fail p M0 Tl R2 CS check s false SA SP threshold t F); try eassumption. apply TS_F. exact Hs.
  - intros tbl F id E q i w e HX HM Hi Hg. rewrite get_fst in Hg. apply lock_ok in HX. destruct HX as (A & _). eapply H_tget; [apply TS_F; exact A|exact HM|exact Hi|exact Hg].
  - intros tbl F id E q i w j ts w' x0 cs cnt HX HM Hi Hev HB Hc. apply TX_put; [exact HX|]. intros t Hs. eapply TS_any. cbn [top_do]. eapply (H_tput p M0 Tl R1 R2 R3 CS check s false SP threshold t F); try eassumption. apply TS_F. exact Hs.
  - exists f, o, st. cbn [snd fst] in *. split; [exact R|]. split; [exact Q1|]. split; [exact Q2|]. split; [exact Q3|]. eexists. exact Q4.
Qed.
Lemma thread_div : forall me x cs0 f, TX x 0 -> (forall r w', ~ peg s check [] p 0 ([], cs0) r w') ->
  vm_exec bufsz (shared_table threshold me) check None f code s x cs0 = None.
Proof.
  intros me x cs0 f Ht Hd. destruct HR as [R1 R2 R3 (c & l & lo & hi & HC & HL & HS & HE)]. change cs0 with (snd (([], cs0) : world CS)).
  pose proof (soft_agree p M0 CS check s HA) as SA. pose proof (soft_pure p M0 CS check s HP) as SP.
  eapply (div_code bufsz Hbuf shared (shared_table threshold me) CS check None s False (False_ind _) thr (MOK p M0) (tin Tl) Hck (XB false)) with (TI := TX) (t := x) (w := ([], cs0) : world CS);
    [apply XB_mono|apply XB_down|apply XB_max|apply XB_le|intros t F F' H _; exact H|intros; apply TX_get; assumption| | | | | |exact HC|exact HL|exact HS|apply any1_notest; apply (sh_any _ _ HS)|exact HE| |reflexivity|exact Ht].
  - intros tbl F id E q i w e HX HM Hi Hg. rewrite get_fst in Hg. apply lock_ok in HX. destruct HX as (A & _). eapply H_get; [apply TS_F; exact A|exact HM|exact Hi|exact Hg].
  - intros tbl F id E q i n0 w j ts w' x0 cs HX HM Hi Hev HB Hc. apply TX_put; [exact HX|]. intros t Hs. eapply TS_any. cbn [top_do]. eapply (H_put_ok p M0 Tl R2 CS check s false SA SP threshold t F); try eassumption. apply TS_F. exact Hs.
  - intros tbl F id E q i n0 w w' x0 pos HX HM Hi Hev HB. apply TX_put; [exact HX|]. intros t Hs. eapply TS_any. cbn [top_do]. eapply (H_put_fail p M0 Tl R2 CS check s false SA SP threshold t F); try eassumption. apply TS_F. exact Hs.
  - intros tbl F id E q i w e HX HM Hi Hg. rewrite get_fst in Hg. apply lock_ok in HX. destruct HX as (A & _). eapply H_tget; [apply TS_F; exact A|exact HM|exact Hi|exact Hg].
  - intros tbl F id E q i w j ts w' x0 cs cnt HX HM Hi Hev HB Hc. apply TX_put; [exact HX|]. intros t Hs. eapply TS_any. cbn [top_do]. eapply (H_tput p M0 Tl R1 R2 R3 CS check s false SP threshold t F); try eassumption. apply TS_F. exact Hs.
  - intros (n & r & w' & y & Hn). apply (Hd r w'). eapply eval_sound. exact Hn.
Qed.

(* ---------- the operations of all goroutines ---------- *)
Definition grows_log (x y : shared) : Prop := exists l, sh_log y = sh_log x ++ l.
Lemma gl_refl : forall x, grows_log x x.
Proof. intro x. exists []. symmetry. apply app_nil_r. Qed.
Lemma gl_trans : forall x y z, grows_log x y -> grows_log y z -> grows_log x z.
Proof. intros x y z (l & H) (m & K). exists (l ++ m). rewrite K, H. symmetry. apply app_assoc. Qed.
Lemma gl_lock : forall x, grows_log x (sh_lock threshold x).
Proof. intro x. unfold sh_lock. destruct (sh_next x) as [|l n]; [apply gl_refl|]. exists l. reflexivity. Qed.
Lemma gl_get : forall me x id pos, grows_log x (snd (t_get (shared_table threshold me) x id pos)).
Proof.
  intros me x id pos. eapply gl_trans; [apply gl_lock|]. cbn [shared_table t_get]. destruct (tt_get (sh_tbl (sh_lock threshold x)) id pos). eexists. reflexivity.
Qed.
Lemma gl_put : forall me x id pos len e c cs, grows_log x (t_put (shared_table threshold me) x id pos len e c cs).
Proof. intros. eapply gl_trans; [apply gl_lock|]. eexists. reflexivity. Qed.

Lemma others_ok : forall me l, okacts l -> Forall okacts (others me l).
Proof.
  intros me l H. induction H as [|a l Ha H IH]; cbn [others]; [repeat constructor|]. destruct (fst a =? me); [constructor; [constructor|exact IH]|].
  destruct (others me l) as [|x xs]; [repeat constructor; exact Ha|]. inversion IH; subst. constructor; [constructor; assumption|assumption].
Qed.
Variable cs : nat -> CS.
Hypothesis Hstop : forall me, exists r w', peg s check [] p 0 ([], cs me) r w'.
Variable t : ttable.
Hypothesis Ht : TS t.
Lemma view_ok : forall me l, okacts l -> TX (view me t l) 0.
Proof. intros me l H. split; [exact Ht|]. split; [constructor|]. apply others_ok. exact H. Qed.
Lemma interleaving_ok : forall l, interleaving bufsz check threshold code s t cs l -> okacts l.
Proof.
  intros l H. induction H as [|l me o n H IH Hl]; [constructor|]. destruct (Hstop me) as (r & [errs cs'] & Hr).
  destruct (thread_some me _ _ _ _ _ (view_ok me l IH) Hr) as (f & o' & st & R & _ & _ & _ & F & (_ & L & _)).
  pose proof (R_run bufsz shared (shared_table threshold me) CS check grows_log gl_refl gl_trans (gl_get me) (fun t id pos len e c cs _ => gl_put me t id pos len e c cs) None code f _ _ _ R n) as (m & G).
  rewrite <- Hl. unfold okacts in *. rewrite G in L. apply Forall_app in L. destruct L as [L _]. apply Forall_forall. rewrite Forall_forall in L. intros a Ha. apply L.
  rewrite <- (firstn_skipn (S (List.length l))). apply in_or_app. left. exact Ha.
Qed.
End Share.
