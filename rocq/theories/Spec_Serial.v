(** What serialization should keep. *)
From Coq Require Import Permutation Ascii String.
From Verif Require Import Base Model_Charset Model_Isa Model_Capture Model_Code Model_VM Model_Pattern Model_Rxconv Model_Checker Model_Serial.
Local Open Scope nat_scope.

(** valid UTF-8: the encoding of some characters *)
Definition valid_rune (r : N) : Prop := (r < 0x110000)%N /\ ~ (0xD800 <= r <= 0xDFFF)%N.
Definition valid_utf8 (s : list byte) : Prop := exists rs, Forall valid_rune rs /\ s = utf8s rs.

(** the checkers, messages and sets of a program *)
Definition has_check (p : program) (k : nat) : Prop := In (ICheckEnd k) p.
Definition has_msg (p : program) (m : string) : Prop := In (IError m) p.
Definition has_set (p : program) (s : cset) : Prop :=
  exists i, In i p /\ match i with ISet s' | ISpan s' | ITestSet s' _ | ITestSetNoChoice s' _ => s' = s | _ => False end.

(** the same checker: for a map, the same keys *)
Definition same_checker (a b : option checker_obj) : Prop :=
  match a, b with
  | Some (OMap ks), Some (OMap ks') => Permutation ks ks'
  | _, _ => a = b
  end.
Definition same_code (a b : gcode) : Prop :=
  g_sets a = g_sets b /\ g_errors a = g_errors b /\ g_insns a = g_insns b /\ Forall2 same_checker (g_checkers a) (g_checkers b).
