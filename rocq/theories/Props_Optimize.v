(** Property C11: peephole optimization. *)
From Verif Require Import Base Model_Charset Model_Isa Model_Capture Model_Input Spec_Input Model_Code Model_VM Model_Pattern Spec_Peg Spec_Run Proof_Props1.
Local Open Scope nat_scope.

(** C11: a program and its optimized form do the same, for every table, checker, interval, input and
    initial state, if the program only skips single bytes with Any. *)
Theorem C11_optimize_partial : forall bufsz T (ops : table_ops T) CS check intrvl p s t (cs : CS),
  0 < bufsz -> (forall n, In (IAny n) p -> n = x01) -> (forall n l, In (ITestAny n l) p -> n = x01) ->
  same_runs (fun f => run (sym_step bufsz ops check intrvl p) f (init_state bufsz ops intrvl s t cs))
            (fun f => run (sym_step bufsz ops check intrvl (optimize p)) f (init_state bufsz ops intrvl s t cs)).
Proof. exact optimize_runs. Qed.
Print Assumptions C11_optimize_partial.

(** a program on which Optimize does something: head-fail tests, and jumps to jumps *)
Definition ex_prog : program :=
  [IChoice 1; IChar x61; IJump 4; ILabel 1; IAny x01; IJump 3; ILabel 4; ICommit 2; ILabel 2; ILabel 3; IEnd false].
Example ex_optimize : optimize ex_prog =
  [ITestChar x61 1; INop; ICommit 2; ILabel 1; IAny x01; IEnd false; ILabel 4; ICommit 2; ILabel 2; ILabel 3; IEnd false]
  /\ (forall n, In (IAny n) ex_prog -> n = x01) /\ (forall n l, In (ITestAny n l) ex_prog -> n = x01).
Proof.
  split; [reflexivity|]. split; intros; cbn in H; repeat (destruct H as [H|H]; [try discriminate H; congruence|]); destruct H.
Qed.

(** With Any(2) the optimized program can fail where the program succeeds: Or(Any(2), Literal("a"))
    on "a".  The test instruction moves the position although it does not match. *)
Definition no_check (k : nat) (cs : unit) (m s : list byte) (i : nat) (id fl : Z) : unit * option nat := (cs, None).
Theorem C11_any_refuted : exists thr fuel p st0 c st1 s f o o' st st',
  compile_f thr fuel p st0 = COk c st1 /\
  run (sym_step (N.to_nat 4096) none_table no_check None c) f (init_state (N.to_nat 4096) none_table None s tt tt) = Some (ROk o st) /\
  run (sym_step (N.to_nat 4096) none_table no_check None (optimize c)) f (init_state (N.to_nat 4096) none_table None s tt tt) = Some (ROk o' st') /\
  o_ok o = true /\ o_pos o = 1 /\ o_ok o' = false.
Proof.
  exists 100, 10, (p_or [PDot x02; PLit [x61]]), (CState 0 0). do 2 eexists. exists [x61], 10. do 4 eexists.
  split; [vm_compute; reflexivity|]. split; [vm_compute; reflexivity|]. split; [vm_compute; reflexivity|]. split; [reflexivity|]. split; reflexivity.
Qed.
Print Assumptions C11_any_refuted.
