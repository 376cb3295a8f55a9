(** The programs whose operands fit into the fields of the bytecode. *)
From Verif Require Import Base Model_Charset Model_Isa Model_Code Model_VM Spec_Run.
Local Open Scope nat_scope.

(** the operands of an instruction: sets, capture, memo and checker ids, targets of jumps, messages *)
Definition sets_of (i : insn) : list cset :=
  match i with ISet s | ISpan s | ITestSet s _ | ITestSetNoChoice s _ => [s] | _ => [] end.
Definition ids_of (i : insn) : list Z :=
  match i with
  | ICaptureBegin id | ICaptureLate _ id | ICaptureFull _ id | IMemoTreeClose id | IMemoOpen _ id | IMemoTreeOpen _ id => [id]
  | ICheckBegin id flag => [id; flag]
  | _ => []
  end.
Definition targets_of (i : insn) : list nat :=
  match i with
  | IJump l | IChoice l | ICall l | ICommit l | IPartialCommit l | IBackCommit l
  | ITestChar _ l | ITestCharNoChoice _ l | ITestAny _ l | ITestSet _ l | ITestSetNoChoice _ l | IMemoOpen l _ | IMemoTreeOpen l _ => [l]
  | _ => []
  end.
Definition messages_of (i : insn) : list string := match i with IError m => [m] | _ => [] end.
Definition checkers_of (i : insn) : list nat := match i with ICheckEnd k => [k] | _ => [] end.

(** no open calls; ids are 16-bit numbers, offsets of targets 24-bit numbers; at most 256 different sets,
    2^24 different messages, 2^24 checkers *)
Definition encodable (p : program) : Prop :=
  (forall x, ~ In (IOpenCall x) p) /\
  (forall i id, In i p -> In id (ids_of i) -> (-32768 <= id < 32768)%Z) /\
  (forall i l, In i p -> In l (targets_of i) -> (N.of_nat (offset_of p (lbl_index p l)) < 16777216)%N) /\
  (exists ss, List.length ss <= 256 /\ incl (flat_map sets_of p) ss) /\
  (exists ms, (N.of_nat (List.length ms) <= 16777216)%N /\ incl (flat_map messages_of p) ms) /\
  (N.of_nat (List.length (flat_map checkers_of p)) <= 16777216)%N.
