(** The stack of the machine in compiled programs (C58). *)
From Coq Require Import ZArith.
From Verif Require Import Base Model_Charset Model_Isa Model_Capture Model_Input Model_Code Model_VM Model_Pattern Spec_Peg Spec_Run Spec_Positions Spec_Stack
  Proof_Codegen Proof_Encode Proof_Machine Proof_Emit Proof_Optimize Proof_Props1 Proof_Safe Proof_SafeCode Proof_SafeMain Proof_Positions Proof_Once.
Local Open Scope nat_scope.

Section St.
Variable bufsz : nat.
Variable T : Type.
Variable ops : table_ops T.
Variable CS : Type.
Variable check : nat -> CS -> list byte -> list byte -> nat -> Z -> Z -> CS * option nat.
Variable intrvl : option (nat * nat).
Variables (thr : nat) (p : pattern) (code : code).
Hypothesis Hc : compiled thr p code.
Variables (s : list byte) (t : T) (cs0 : CS) (st : mstate T CS).
Hypothesis R : reached (vm_step bufsz ops check intrvl code) (init_state bufsz ops intrvl s t cs0) st.

Lemma stack_next : exists i Q, decode code (m_ip st) = Some i /\ exec_a i (m_ip st) (m_ip st + sz i) (kinds T CS st) Q.
Proof.
  destruct (compiled_closed _ _ _ Hc) as (c & I & He & HI & H0).
  pose proof (disc c code He I HI H0 bufsz T ops CS check intrvl s t cs0 st R) as D.
  destruct (img_next c code He I HI _ _ D) as (i & Hi & Hx). eauto.
Qed.
Theorem stack_fetch : exists i, decode code (m_ip st) = Some i.
Proof. destruct stack_next as (i & Q & H & _). eauto. Qed.
Theorem stack_top : forall i k, decode code (m_ip st) = Some i -> ends i = Some k -> exists e stk, m_stk st = e :: stk /\ entry_of (s_kind e) = k.
Proof.
  intros i k Hi Hk. destruct stack_next as (j & Q & Hj & Hx). rewrite Hi in Hj. injection Hj as <-. unfold kinds in Hx.
  destruct i; try discriminate; injection Hk as <-; cbn [exec_a] in Hx; destruct (m_stk st) as [|[[] c] stk]; cbn [map s_kind kind_of] in Hx; try contradiction; do 2 eexists; split; reflexivity.
Qed.
Theorem stack_end : decode code (m_ip st) = Some (IEnd false) -> m_stk st = [].
Proof.
  intro Hi. destruct stack_next as (j & Q & Hj & Hx). rewrite Hi in Hj. injection Hj as <-. cbn [exec_a] in Hx.
  destruct Hx as [Hx|Hx]; [discriminate|]. unfold kinds in Hx. destruct (m_stk st); [reflexivity|discriminate].
Qed.
Lemma fail_not_ok : forall stk (x : mstate T CS) o x1, do_fail bufsz ops intrvl stk x = Done o x1 -> exists n r e, o = Outcome false n r e.
Proof.
  induction stk as [|[k c] stk IH]; intros x o x1 H; cbn [do_fail s_kind] in H; [injection H as <- _; eauto|].
  destruct k; try discriminate; eapply IH; exact H.
Qed.
Lemma exec_ok : forall i next (x : mstate T CS) n r e x1, exec_d bufsz ops check intrvl i next x = Done (Outcome true n r e) x1 -> i = IEnd false.
Proof.
  intros i next x n r e x1 H.
  assert (F : forall x0, fail bufsz ops intrvl x0 = Done (Outcome true n r e) x1 -> i = IEnd false) by (intros x0 H0; apply fail_not_ok in H0; destruct H0 as (? & ? & ? & H0); discriminate).
  destruct i; cbn [exec_d] in H; try discriminate;
    repeat match type of H with
           | context [match ?e with _ => _ end] => destruct e; try discriminate
           end; try (eapply F; exact H).
  destruct fail; [|reflexivity]. unfold finish in H. destruct intrvl as [[]|]; discriminate.
Qed.
Theorem stack_done : forall n r e st1, vm_step bufsz ops check intrvl code st = Done (Outcome true n r e) st1 -> m_stk st = [].
Proof.
  intros n r e st1 H. apply stack_end. destruct stack_fetch as (i & Hi). unfold vm_step in H. rewrite Hi in H. rewrite (exec_ok _ _ _ _ _ _ _ H) in Hi. exact Hi.
Qed.
End St.
