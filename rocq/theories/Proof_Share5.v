(** Goroutines with one table, starting from a good table. *)
From Coq Require Import ZArith.
From Verif Require Import Base Model_Isa Model_Capture Model_Input Model_Code Model_VM Model_Pattern Spec_Peg Spec_Scope Spec_Run Proof_Machine Proof_Emit Proof_Main Model_Interval Model_Table Spec_Memo Proof_Memo Proof_Memo2 Proof_Memo3 Proof_Memo4 Model_Share Proof_Share Proof_Share2.
Local Open Scope nat_scope.

Section Good.
Variable bufsz : nat.
Hypothesis Hbuf : 0 < bufsz.
Variable CS : Type.
Variable check : nat -> CS -> list byte -> list byte -> nat -> Z -> Z -> CS * option nat.
Variables (thr : nat) (threshold : Z) (p : pattern) (code : code) (s : list byte).
Hypothesis Hck : check_ok check s.
Hypothesis HA : memo_agree s check p.
Hypothesis HP : memo_pure s check p.
Variable cs : nat -> CS.
Hypothesis Hstop : forall me, exists r w', peg s check [] p 0 ([], cs me) r w'.
Variables (t : ttable) (l : list act).
Hypothesis Hgood : good CS check thr p code s t.
Hypothesis Hl : interleaving bufsz check threshold code s t cs l.

Lemma share_some : forall me r errs cs', peg s check [] p 0 ([], cs me) r (errs, cs') ->
  exists f o st, vm_exec bufsz (shared_table threshold me) check None f code s (view me t l) (cs me) = Some (ROk o st) /\
    agrees None r o /\ o_errs o = errs /\ m_cs st = cs'.
Proof.
  intros me r errs cs' H. destruct Hgood as (M0 & Tl & R & T).
  pose proof (interleaving_ok bufsz Hbuf thr p code M0 Tl R threshold CS check s Hck HA HP cs Hstop t T l Hl) as O.
  destruct (thread_some bufsz Hbuf thr p code M0 Tl R threshold CS check s Hck HA HP me (view me t l) (cs me) r errs cs' (view_ok p M0 Tl threshold CS check s t T me l O) H) as (f & o & st & A & B & C & D & _).
  exists f, o, st. auto.
Qed.
Lemma share_good : good CS check thr p code s (acts_do threshold t l).
Proof.
  destruct Hgood as (M0 & Tl & R & T). exists M0, Tl. split; [exact R|]. apply acts_ok; [|exact T].
  exact (interleaving_ok bufsz Hbuf thr p code M0 Tl R threshold CS check s Hck HA HP cs Hstop t T l Hl).
Qed.
End Good.
