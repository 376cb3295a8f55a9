(** Properties C03 and C04: the input cursor. *)
From Verif Require Import Base Model_Input Spec_Input Proof_Input.

(** C03: every observation of every client program (any data, any chunk size, any sequence of
    Peek, PeekBefore, SeekTo, Advance(1), Pos, Furthest, ResetFurthest, Slice) is that of a
    plain index into the data. *)
Theorem C03_cursor : forall (bufsz : nat), 0 < bufsz -> forall (data : list byte) (ops : list iop),
  Forall unit_advance ops ->
  i_run bufsz (i_new bufsz data) ops = cursor_run (Cursor data 0 0) ops.
Proof. exact run_new. Qed.
Print Assumptions C03_cursor.

(** C04, the part that holds: in every reachable state (Advance with arbitrary n allowed in the
    history) Advance(n) returning true means that n bytes were there and were skipped;
    it returns false only past the end, or when the n bytes leave the current chunk. *)
Theorem C04_advance_partial : forall (bufsz : nat), 0 < bufsz -> forall data i n, reach bufsz data i ->
  let r := i_advance bufsz i n in
  (fst r = true -> i_pos i + n <= length data /\ i_pos (snd r) = i_pos i + n) /\
  (fst r = false -> i_pos i < length data -> i_coff i + n <= bufsz -> length data < i_pos i + n) /\
  (i_pos i < length data -> i_pos (snd r) = i_pos i + n) /\
  (length data <= i_pos i -> fst r = false /\ i_pos (snd r) = i_pos i).
Proof. exact advance_exact. Qed.
Print Assumptions C04_advance_partial.

(** C04, for n = 1 in full. *)
Theorem C04_advance_one : forall (bufsz : nat), 0 < bufsz -> forall data i, reach bufsz data i ->
  (fst (i_advance bufsz i 1) = true <-> i_pos i + 1 <= length data).
Proof. exact advance_one_iff. Qed.
Print Assumptions C04_advance_one.

(** C04 is false as stated: with the code's chunk size 4096, two bytes remaining in the data,
    Advance(2) at position 4095 of a 5000 byte input returns false. *)
Theorem C04_advance_refuted : exists data ops n,
  let i := fold_left (fun i op => snd (i_step (N.to_nat 4096) i op)) ops (i_new (N.to_nat 4096) data) in
  i_pos i + n <= length data /\ fst (i_advance (N.to_nat 4096) i n) = false.
Proof. exact advance_refuted. Qed.
Print Assumptions C04_advance_refuted.

(** C04 is also false for n = 0 at the end of the data. *)
Theorem C04_advance0_refuted : exists data, let i := i_new (N.to_nat 4096) data in
  i_pos i + 0 <= length data /\ fst (i_advance (N.to_nat 4096) i 0) = false.
Proof. exact advance0_refuted. Qed.
Print Assumptions C04_advance0_refuted.

(** non-vacuity: a program crossing chunk boundaries of a 3-byte cache *)
Example ex_cursor :
  let ops := [OpPeek; OpAdvance 1; OpAdvance 1; OpAdvance 1; OpPeek; OpPeekBefore; OpSeek 6; OpPeek;
              OpPeekBefore; OpSeek 1; OpPos; OpFurthest] in
  Forall unit_advance ops /\
  i_run 3 (i_new 3 [x61;x62;x63;x64;x65]) ops =
  [OByte (Some x61); OBool true; OBool true; OBool true; OByte (Some x64); OByte (Some x63);
   OBool false; OByte None; OByte None; OBool true; ONat 1; ONat 6].
Proof. split; [repeat constructor|vm_compute; reflexivity]. Qed.

Example ex_reach : reach 3 [x61;x62;x63;x64] (snd (i_step 3 (snd (i_step 3 (i_new 3 [x61;x62;x63;x64]) (OpSeek 2))) (OpAdvance 2))).
Proof. repeat constructor. Qed.
