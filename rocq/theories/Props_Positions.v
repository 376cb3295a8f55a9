(** Property C57: positions and lengths are never negative. *)
From Verif Require Import Base Model_Charset Model_Isa Model_Input Model_Capture Model_Code Model_VM Model_Pattern Spec_Peg Spec_Run Spec_Positions Proof_Props1 Proof_Positions.
Local Open Scope nat_scope.

(** C57: whatever the bytecode, the table, the checkers and the interval, at every step the positions on the
    stack are not behind the current one.  So the lengths that the machine computes from them (vm.go:79, 281,
    314, 359, 387, 394) are not negative, and Slice is not called with low > high (vm.go:421). *)
Theorem C57_stack : forall bufsz T (ops : table_ops T) CS check intrvl code s t (cs0 : CS) st,
  reached (vm_step bufsz ops check intrvl code) (init_state bufsz ops intrvl s t cs0) st ->
  forall e pos, In e (m_stk st) -> start_of (s_kind e) = Some pos -> pos <= mpos st.
Proof. exact starts_ok. Qed.
Print Assumptions C57_stack.

(** C57: in the program of any pattern a capture that starts some bytes back (CaptureLate, CaptureFull) does not
    start before the text *)
Theorem C57_back : forall bufsz T (ops : table_ops T) CS check intrvl thr p code s t (cs0 : CS) st,
  compiled thr p code -> reached (vm_step bufsz ops check intrvl code) (init_state bufsz ops intrvl s t cs0) st ->
  forall i b, decode code (m_ip st) = Some i -> back_of i = Some b -> b <= mpos st.
Proof. exact back_ok. Qed.
Print Assumptions C57_back.

(** a capture over a choice, with the test for its first byte moved to the front by the optimizer *)
Definition ex_late : pattern := PStar (PAlt (PCap (PSeq (PLit [x61; x62]) (POpt (PLit [x63]))) 1) (PMemo (PLit [x62]) 2)).
(** its program reaches a capture that starts two bytes back, with entries on the stack *)
Definition no_check (k : nat) (cs : unit) (m s : list byte) (i : nat) (id fl : Z) : unit * option nat := (cs, None).
Definition ex_state (n : nat) (c : code) : mstate unit unit :=
  after_steps (vm_step 4 none_table no_check None c) n (init_state 4 none_table None [x62; x61; x62; x63] tt tt).
Example ex_late_reached : exists c i, compiled 0 ex_late c /\
  reached (vm_step 4 none_table no_check None c) (init_state 4 none_table None [x62; x61; x62; x63] tt tt) (ex_state 8 c) /\
  decode c (m_ip (ex_state 8 c)) = Some i /\ back_of i = Some 2 /\ mpos (ex_state 8 c) = 3 /\
  map (fun e => start_of (s_kind e)) (m_stk (ex_state 8 c)) = [Some 1; Some 1].
Proof.
  assert (E : match (match compile 0 20 ex_late (CState 0 0) with COk c _ => encode c | _ => None end) with Some c => match decode c (m_ip (ex_state 8 c)) with Some i => back_of i = Some 2 | None => False end /\ mpos (ex_state 8 c) = 3 /\
                map (fun e => start_of (s_kind e)) (m_stk (ex_state 8 c)) = [Some 1; Some 1] | None => False end) by (vm_compute; split; [reflexivity|split; reflexivity]).
  destruct (compile 0 20 ex_late (CState 0 0)) as [p st| | |] eqn:Ec; try contradiction. destruct (encode p) as [c|] eqn:Ee; [|contradiction].
  destruct E as (E1 & E2 & E3). destruct (decode c (m_ip (ex_state 8 c))) as [i|] eqn:Ed; [|contradiction]. exists c, i.
  split; [exists 20, (CState 0 0), p, st; split; assumption|]. split; [unfold ex_state; refine (steps_reached _ _ _ 8 _)|]. split; [exact Ed|]. split; [exact E1|]. split; [exact E2|exact E3].
Qed.
(** a program that is not the program of a pattern can start a capture before the text *)
Example ex_before : exists c i, encode [ICaptureFull x01 1] = Some c /\ decode c (m_ip (ex_state 0 c)) = Some i /\ back_of i = Some 1 /\ mpos (ex_state 0 c) = 0.
Proof.
  assert (E : match encode [ICaptureFull x01 1] with Some c => match decode c (m_ip (ex_state 0 c)) with Some i => back_of i = Some 1 | None => False end /\ mpos (ex_state 0 c) = 0 | None => False end)
    by (vm_compute; split; reflexivity).
  destruct (encode [ICaptureFull x01 1]) as [c|]; [|contradiction]. destruct E as [E1 E2]. destruct (decode c (m_ip (ex_state 0 c))) as [i|] eqn:Ed; [|contradiction].
  exists c, i. split; [reflexivity|]. split; [exact Ed|]. split; [exact E1|exact E2].
Qed.
