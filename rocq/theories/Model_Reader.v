(** Model of input/reader.go: io.ReaderAt on top of an io.Reader. *)
From Verif Require Import Base Model_Input.

(** An io.Reader as the sequence of results of its future Read calls: [rd_pending] lists the
    bytes of the calls returning a nil error (possibly none), [rd_final] the bytes returned
    together with io.EOF; after that every call returns (0, io.EOF).  Each Read is given a
    4096-byte buffer (reader.go:39), so a result never exceeds that; the bound is not needed. *)
Record reader := Reader { rd_pending : list (list byte); rd_final : list byte }.

(** everything the reader will ever deliver *)
Definition rd_stream (r : reader) : list byte := concat (rd_pending r) ++ rd_final r.

(** one Read call: bytes, whether io.EOF was returned, new state *)
Definition rd_read (r : reader) : list byte * bool * reader :=
  match rd_pending r with
  | c :: rest => (c, false, Reader rest (rd_final r))
  | [] => (rd_final r, true, Reader [] [])
  end.

(** reader.go:11-15 readerWrapper (the mutex is not modelled: calls are sequential) *)
Record wrapper := Wrapper { w_reader : reader; w_buf : list byte }.

(** reader.go:18-22 FromReader *)
Definition from_reader (r : reader) : wrapper := Wrapper r [].

(** reader.go:40-46, the loop [for int64(len(r.buf))-off < blen]; recursion on the list of
    pending reads.  [off] is not negative. Returns the error flag of the last Read. *)
Fixpoint w_fill (pending : list (list byte)) (final buf : list byte) (need : nat) : bool * reader * list byte :=
  if need <=? length buf then (false, Reader pending final, buf)
  else match pending with
       | c :: rest => w_fill rest final (buf ++ c) need
       | [] => (true, Reader [] [], buf ++ final)
       end.

(** reader.go:27-52 ReadAt: bytes copied into b (len(b) = blen), error flag *)
Definition w_read_at (w : wrapper) (off blen : nat) : list byte * bool * wrapper :=
  if off + blen <=? length (w_buf w) then (firstn blen (skipn off (w_buf w)), false, w)
  else
    let '(err, rd, buf) := w_fill (rd_pending (w_reader w)) (rd_final (w_reader w)) (w_buf w) (off + blen) in
    let w' := Wrapper rd buf in
    if length buf <=? off then ([], err, w')
    else (firstn blen (skipn off buf), err, w').

(** reader.go:55-59 Slice *)
Definition w_slice (w : wrapper) (low high : nat) : list byte * wrapper :=
  let '(b, _, w') := w_read_at w low (high - low) in (b, w').
