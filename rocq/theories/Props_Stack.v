(** Property C58: instructions find on the stack what they expect, and it is empty at the end. *)
From Coq Require Import ZArith.
From Verif Require Import Base Model_Charset Model_Isa Model_Input Model_Capture Model_Code Model_VM Model_Pattern Spec_Peg Spec_Run Spec_Positions Spec_Stack Proof_Props1 Proof_Positions Proof_Stack.
Local Open Scope nat_scope.

(** C58: in every run of the program of any pattern, the machine is always at the beginning of an instruction,
    and an instruction that ends something (a choice, a call, a memoized pattern, a repetition, a capture, a
    checker) finds on top of the stack an entry for such a thing *)
Theorem C58_top : forall bufsz T (ops : table_ops T) CS check intrvl thr p code, compiled thr p code -> forall s t (cs0 : CS) st,
  reached (vm_step bufsz ops check intrvl code) (init_state bufsz ops intrvl s t cs0) st ->
  exists i, decode code (m_ip st) = Some i /\ forall k, ends i = Some k -> exists e stk, m_stk st = e :: stk /\ entry_of (s_kind e) = k.
Proof.
  intros bufsz T ops CS check intrvl thr p code Hc s t cs0 st R. destruct (stack_fetch bufsz T ops CS check intrvl thr p code Hc s t cs0 st R) as (i & Hi).
  exists i. split; [exact Hi|]. intro k. exact (stack_top bufsz T ops CS check intrvl thr p code Hc s t cs0 st R i k Hi).
Qed.
Print Assumptions C58_top.

(** C58: when the match has succeeded nothing is left on the stack, so no capture is lost in an entry *)
Theorem C58_empty : forall bufsz T (ops : table_ops T) CS check intrvl thr p code, compiled thr p code -> forall s t (cs0 : CS) st,
  reached (vm_step bufsz ops check intrvl code) (init_state bufsz ops intrvl s t cs0) st ->
  forall n r e st1, vm_step bufsz ops check intrvl code st = Done (Outcome true n r e) st1 -> m_stk st = [].
Proof. exact stack_done. Qed.
Print Assumptions C58_empty.

(** a repeated capture with an option in it, or a memoized letter; the text is "babc" *)
Definition ex_nested : pattern := PStar (PAlt (PCap (PSeq (PLit [x61; x62]) (POpt (PLit [x63]))) 1) (PMemo (PLit [x62]) 2)).
Definition no_check (k : nat) (cs : unit) (m s : list byte) (i : nat) (id fl : Z) : unit * option nat := (cs, None).
Definition at_step (n : nat) (c : code) : mstate unit unit :=
  after_steps (vm_step 4 none_table no_check None c) n (init_state 4 none_table None [x62; x61; x62; x63] tt tt).
Definition seen (c : code) (n : nat) : option entry_kind * list entry_kind :=
  let st := at_step n c in (match decode c (m_ip st) with Some i => ends i | None => None end, map (fun e => entry_of (s_kind e)) (m_stk st)).
Definition ex_code : option code := match compile 0 20 ex_nested (CState 0 0) with COk c _ => encode c | _ => None end.
Example ex_compiled : exists c, ex_code = Some c /\ compiled 0 ex_nested c.
Proof.
  assert (E : match ex_code with Some _ => True | None => False end) by (vm_compute; exact Logic.I). unfold ex_code in *.
  destruct (compile 0 20 ex_nested (CState 0 0)) as [p st| | |] eqn:Ec; try contradiction. destruct (encode p) as [c|] eqn:Ee; [|contradiction].
  exists c. split; [reflexivity|]. exists 20, (CState 0 0), p, st. split; assumption.
Qed.
Example ex_reached : forall c n, reached (vm_step 4 none_table no_check None c) (init_state 4 none_table None [x62; x61; x62; x63] tt tt) (at_step n c).
Proof. intros c n. unfold at_step. refine (steps_reached _ _ _ n _). Qed.
(** the entries in the middle of the run, and the end of the run with one capture *)
Example ex_seen : match ex_code with
  | Some c => map (seen c) [4; 10; 11; 12; 16] =
      [(Some EMemo, [EMemo; EChoice]); (Some ECapture, [ECapture; EChoice; EChoice]); (Some EChoice, [EChoice; EChoice]); (Some EChoice, [EChoice]); (None, [])] /\
      exists r st, vm_step 4 none_table no_check None c (at_step 16 c) = Done (Outcome true 4 r []) st
  | None => False end.
Proof. vm_compute. split; [reflexivity|]. eexists _, _. reflexivity. Qed.
(** other programs may end with entries on the stack, or meet the wrong entry *)
Example ex_left_over : match encode [IChoice 7] with
  | Some c => (exists n r e st, vm_step 4 none_table no_check None c (at_step 1 c) = Done (Outcome true n r e) st) /\ snd (seen c 1) = [EChoice]
  | None => False end.
Proof. vm_compute. split; [|reflexivity]. eexists _, _, _, _. reflexivity. Qed.
Example ex_wrong : match encode [IChoice 7; IMemoClose] with Some c => seen c 1 = (Some EMemo, [EChoice]) | None => False end.
Proof. vm_compute. reflexivity. Qed.
