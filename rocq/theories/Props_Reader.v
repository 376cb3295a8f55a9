(** Property C05: random access on top of a sequential reader. *)
From Verif Require Import Base Model_Input Model_Reader Proof_Reader.

(** For every way the reader splits its stream over Read calls (any list of chunk sizes, empty
    reads included, last bytes with or after EOF) and every history of ReadAt calls, each call
    returns the stream's bytes at its range, and an error whenever the result is short. *)
Theorem C05_from_reader : forall (r : reader) (calls : list (nat * nat)),
  Forall2 (fun call res =>
      fst res = firstn (snd call) (skipn (fst call) (rd_stream r)) /\
      (length (fst res) < snd call -> snd res = true))
    calls (w_run (from_reader r) calls).
Proof. exact from_reader_run. Qed.
Print Assumptions C05_from_reader.

(** Slice after any history of reads is the slice of the stream. *)
Theorem C05_slice : forall r calls low high,
  let w := fold_left (fun w c => snd (w_read_at w (fst c) (snd c))) calls (from_reader r) in
  fst (w_slice w low high) = firstn (high - low) (skipn low (rd_stream r)).
Proof. exact w_slice_ok. Qed.
Print Assumptions C05_slice.

(** Finding: an error may accompany a full result that does not reach the end of the stream
    (io.ReaderAt forbids it): the error of the last Read is returned although more bytes are
    already buffered.  gpeg itself ignores the error. *)
Theorem C05_spurious_eof_refuted : exists r off n, let '(b, err, _) := w_read_at (from_reader r) off n in
  off + n < length (rd_stream r) /\ length b = n /\ err = true.
Proof. exact spurious_eof. Qed.
Print Assumptions C05_spurious_eof_refuted.

Example ex_reader :
  w_run (from_reader (Reader [[x61;x62];[];[x63]] [x64])) [(1,1);(3,4);(0,4);(9,1)] =
  [([x62],false);([x64],true);([x61;x62;x63;x64],false);([],true)].
Proof. vm_compute. reflexivity. Qed.
