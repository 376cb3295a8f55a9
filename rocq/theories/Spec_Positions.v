(** What the positions of the machine have to satisfy (property C57). *)
From Verif Require Import Base Model_Isa Model_Input Model_Capture Model_VM.
Local Open Scope nat_scope.

(** the position stored in a stack entry *)
Definition start_of (k : skind) : option nat :=
  match k with
  | KRet _ => None
  | KBtrack _ off => Some off
  | KMemo _ pos | KTree _ pos _ | KCapt _ pos | KCheck _ _ pos => Some pos
  end.
(** states reached from a state by any number of steps *)
Inductive reached {T CS} (step : mstate T CS -> step_res T CS) (st : mstate T CS) : mstate T CS -> Prop :=
| rc_refl : reached step st st
| rc_step : forall st1 st2, reached step st st1 -> step st1 = Next st2 -> reached step st st2.
(** the number of bytes a capture instruction reaches back *)
Definition back_of (i : insn) : option nat :=
  match i with ICaptureLate b _ | ICaptureFull b _ => Some (N.to_nat (bN b)) | _ => None end.
(** the state after [n] steps, or the last one *)
Fixpoint after_steps {T CS} (step : mstate T CS -> step_res T CS) (n : nat) (st : mstate T CS) : mstate T CS :=
  match n with
  | 0 => st
  | S n => let st := after_steps step n st in match step st with Next st' => st' | _ => st end
  end.
