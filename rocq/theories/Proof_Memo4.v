(** Parsing with a tree table: the statements for patterns as a user writes them. *)
From Coq Require Import ZArith.
From Verif Require Import Base Model_Charset Model_Isa Model_Capture Model_Code Model_VM Model_Pattern Spec_Peg Spec_Scope Spec_Run Proof_Eval Proof_Compile Proof_Emit Proof_Main Model_Table Spec_Memo Proof_Memo Proof_Memo2 Proof_Memo3.
Local Open Scope nat_scope.

Section Memo.
Variable bufsz : nat.
Hypothesis Hbuf : 0 < bufsz.
Variable CS : Type.
Variable check : nat -> CS -> list byte -> list byte -> nat -> Z -> Z -> CS * option nat.
Variables (thr : nat) (threshold : Z) (p : pattern) (code : code) (s : list byte).
Hypothesis Hck : check_ok check s.
Hypothesis Hs : supported p.
Hypothesis Hc : compiled_memo thr p code.
Notation exec f t cs := (vm_exec bufsz (tree_table threshold) check None f code s t cs).

Section Good.
Hypothesis HA : memo_agree s check p.
Hypothesis HP : memo_pure s check p.
Definition good (t : ttable) : Prop := exists M0 Tl, ready thr p code M0 Tl /\ TI p M0 Tl CS check s false t 0.
Lemma good_new : good tt_new.
Proof. destruct (compiled_ready _ _ _ Hs Hc) as (M0 & Tl & R). exists M0, Tl. split; [exact R|apply TI_new]. Qed.
Lemma good_runs : forall t t', after_runs bufsz check threshold p code s t t' -> good t -> good t'.
Proof. intros t t' H (M0 & Tl & R & T). exists M0, Tl. split; [exact R|]. eapply TS_runs; eassumption. Qed.
Lemma good_some : forall t cs0 r errs cs', good t -> peg s check [] p 0 ([], cs0) r (errs, cs') ->
  exists f o st, exec f t cs0 = Some (ROk o st) /\ agrees None r o /\ o_errs o = errs /\ m_cs st = cs'.
Proof.
  intros t cs0 r errs cs' (M0 & Tl & R & T) H.
  destruct (tree_some bufsz Hbuf thr p code M0 Tl R threshold CS check s Hck false (soft_agree p M0 CS check s HA) (soft_pure p M0 CS check s HP) t cs0 r errs cs' T H)
    as (f & o & st & A & B & C & D & _). exists f, o, st. auto.
Qed.
Lemma good_is : forall t cs0 r errs cs' f y, good t -> peg s check [] p 0 ([], cs0) r (errs, cs') -> exec f t cs0 = Some y ->
  exists o st, y = ROk o st /\ agrees None r o /\ o_errs o = errs /\ m_cs st = cs'.
Proof.
  intros t cs0 r errs cs' f y G H Hy. destruct (good_some _ _ _ _ _ G H) as (f' & o & st & A & B). exists o, st. split; [|exact B].
  eapply run_det; [exact Hy|exact A].
Qed.
Lemma good_forever : forall t cs0, good t -> (forall r w', ~ peg s check [] p 0 ([], cs0) r w') -> forall f, exec f t cs0 = None.
Proof.
  intros t cs0 (M0 & Tl & R & T) H f.
  exact (tree_div bufsz Hbuf thr p code M0 Tl R threshold CS check s Hck false (soft_agree p M0 CS check s HA) (soft_pure p M0 CS check s HP) t cs0 f T H).
Qed.
End Good.
End Memo.

(* ---------- edits after the first parse ---------- *)
Lemma good_edits : forall bufsz CS check thr threshold p code s f cs r w' o st es t1,
  0 < bufsz -> check_ok (CS:=CS) check s -> supported p -> compiled_memo thr p code -> memo_once p -> memo_recorded p ->
  peg s check [] p 0 ([], cs) r w' -> vm_exec bufsz (tree_table threshold) check None f code s tt_new cs = Some (ROk o st) ->
  edits_ok s es -> Forall gentle (tl es) -> after_edits (m_tbl st) es t1 ->
  good CS check thr p code (edits_text s es) t1.
Proof.
  intros bufsz CS check thr threshold p code s f cs r [errs cs'] o st es t1 Hb Hk Hs Hc HO HR Hp Hx He Hg Ha.
  destruct (compiled_ready _ _ _ Hs Hc) as (M0 & Tl & R).
  destruct (tree_some bufsz Hb thr p code M0 Tl R threshold CS check s Hk true (hard_agree p M0 CS check HO s) (hard_pure p M0 CS check HR s) tt_new cs r errs cs' (TI_new p M0 Tl CS check s true 0) Hp)
    as (f' & o' & st' & A & _ & _ & _ & F & T).
  pose proof (run_det _ _ _ _ _ _ Hx A) as E. injection E as <- <-.
  exists M0, Tl. split; [exact R|]. eapply (edits_first); try eassumption. eapply TE_parse. exact T.
Qed.
Lemma edited : forall es t, after_edits t es (edits_table t es).
Proof. induction es as [|e es IH]; intro t; [apply ae_none|apply ae_edit; apply IH].
Qed.
Lemma once_agree' : forall CS check p s, memo_once p -> memo_agree s (CS:=CS) check p.
Proof. intros CS check p s HO. exact (once_agree p CS check HO s). Qed.
Lemma rec_pure' : forall CS check p s, memo_recorded p -> memo_pure s (CS:=CS) check p.
Proof. intros CS check p s HR. exact (rec_pure p CS check HR s). Qed.
