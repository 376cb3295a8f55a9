(** Properties C06 and C07: encoding of instructions. *)
From Verif Require Import Base Model_Charset Model_Isa Model_Capture Model_Input Spec_Input Model_Code Model_VM Spec_Peg Spec_Run Spec_Encode Proof_Encode Proof_Props1 Proof_Fits.
Local Open Scope nat_scope.

(** C06: every operand that Encode accepts is read back by the machine as it was, whatever follows it,
    and Encode panics ([None]) exactly on the operands out of range. *)
Theorem C06_u8 : forall x, (encode_u8 x = None <-> (256 <= x)%N) /\
  forall bs, encode_u8 x = Some bs -> List.length bs = 1 /\ forall r, option_map bN (decode_u8 (bs ++ r)) = Some x.
Proof. exact u8_spec. Qed.
Print Assumptions C06_u8.
Theorem C06_i16 : forall x, (encode_i16 x = None <-> (x < -32768 \/ 32768 <= x)%Z) /\
  forall bs, encode_i16 x = Some bs -> List.length bs = 2 /\ forall r, decode_i16 (bs ++ r) = Some x.
Proof. exact i16_spec. Qed.
Print Assumptions C06_i16.
Theorem C06_u24 : forall x, (encode_u24 x = None <-> (16777216 <= x)%N) /\
  forall bs, encode_u24 x = Some bs -> List.length bs = 3 /\ forall r, decode_u24 (bs ++ r) = Some x.
Proof. exact u24_spec. Qed.
Print Assumptions C06_u24.
Example ex_i16 : encode_i16 (-2)%Z = Some [xfe; xff] /\ decode_i16 [xfe; xff; x07] = Some (-2)%Z.
Proof. split; reflexivity. Qed.
Example ex_u24 : encode_u24 66051%N = Some [x01; x03; x02] /\ decode_u24 [x01; x03; x02] = Some 66051%N.
Proof. split; reflexivity. Qed.

(** C07: each instruction that is not a label or Nop is found in the bytecode at its offset with all
    its operands; the machine then continues at the offset of the next one; a jump goes to the offset of its
    label; after the last instruction there is a successful End. *)
Theorem C07_fetch : forall p c, encode p = Some c -> forall k i,
  nth_error p k = Some i -> is_label_or_nop i = false ->
  exists i', decode c (offset_of p k) = Some i' /\
    i' = map_lbl (fun l => offset_of p (lbl_index p l)) i /\ offset_of p k + sz i' = offset_of p (S k).
Proof. exact fetch_spec. Qed.
Print Assumptions C07_fetch.
Theorem C07_end : forall p c, encode p = Some c -> decode c (offset_of p (List.length p)) = Some (IEnd false).
Proof. exact fetch_end_spec. Qed.
Print Assumptions C07_end.
(** the label table sends a label that occurs in the program to its place *)
Theorem C07_label : forall p l, In l (labels p) -> nth_error p (lbl_index p l) = Some (ILabel l).
Proof. exact lbl_index_in. Qed.
Print Assumptions C07_label.
(** so the machine on bytecode and the machine on the instruction list do the same, for every table,
    checker, interval, input and initial state of the checkers *)
Theorem C07_run : forall bufsz T (ops : table_ops T) CS check intrvl p c s t (cs : CS),
  0 < bufsz -> encode p = Some c ->
  same_runs (fun f => run (sym_step bufsz ops check intrvl p) f (init_state bufsz ops intrvl s t cs))
            (fun f => vm_exec bufsz ops check intrvl f c s t cs).
Proof. exact encode_runs. Qed.
Print Assumptions C07_run.

(** Encode panics exactly on the programs with an operand that does not fit *)
Theorem C07_encodes : forall p, (exists c, encode p = Some c) <-> encodable p.
Proof. exact encode_iff. Qed.
Print Assumptions C07_encodes.

Definition ex_prog : program := [IChoice 1; IChar x61; ILabel 3; ISet (cs_range x30 x39); ICommit 2; ILabel 1; IJump 3; ILabel 2; ICaptureFull x02 (-5)%Z].
Example ex_encode : exists c, encode ex_prog = Some c /\ decode c (offset_of ex_prog 6) = Some (IJump (offset_of ex_prog 2)) /\
  decode c (offset_of ex_prog 8) = Some (ICaptureFull x02 (-5)%Z).
Proof. eexists. split; [reflexivity|]. split; reflexivity. Qed.
(** programs Encode refuses: an id that does not fit, an unresolved call *)
Example ex_encode_panics : encode [ICaptureBegin 40000%Z] = None /\ encode [IOpenCall "A"] = None.
Proof. split; reflexivity. Qed.
