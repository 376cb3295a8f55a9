(** Model of input/input.go: the caching cursor over an io.ReaderAt. *)
From Verif Require Import Base.

(** io.ReaderAt contract for a reader over the bytes [data]: ReadAt(b, off) with
    len(b) = n delivers the bytes available in [off, off+n). *)
Definition read_at (data : list byte) (off n : nat) : list byte := firstn n (skipn off data).

(** input.go:14-29 [type Input struct].  [i_chunk] holds the valid part of the cache,
    i.e. [chunk[:nchunk]]; bytes of the array beyond nchunk are never observed as valid.
    The one-byte scratch buffer [b] is not state. *)
Record input := Input { i_data : list byte; i_chunk : list byte; i_base : nat; i_coff : nat; i_furthest : nat }.

Definition i_nchunk (i : input) : nat := length (i_chunk i).

Section Input.
(** input.go:8 [const bufsz = 4096] *)
Variable bufsz : nat.

(** input.go:40-44 refill *)
Definition i_refill (i : input) (pos : nat) : input :=
  Input (i_data i) (read_at (i_data i) pos bufsz) pos 0 (i_furthest i).

(** input.go:32-38 NewInput *)
Definition i_new (data : list byte) : input := i_refill (Input data [] 0 0 0) 0.

(** input.go:49-56 Peek *)
Definition i_peek (i : input) : option byte * input :=
  let pos := i_base i + i_coff i in
  let i' := Input (i_data i) (i_chunk i) (i_base i) (i_coff i)
                  (if i_furthest i <? pos then pos else i_furthest i) in
  (if i_nchunk i =? 0 then None else Some (nth (i_coff i) (i_chunk i) x00), i').

(** input.go:58-67 PeekBefore *)
Definition i_peek_before (i : input) : option byte :=
  if i_base i + i_coff i =? 0 then None
  else if 1 <=? i_coff i then
    (if i_nchunk i =? 0 then None else Some (nth (i_coff i - 1) (i_chunk i) x00))
  else
    match read_at (i_data i) (i_base i + i_coff i - 1) 1 with
    | [b] => Some b
    | _ => None
    end.

(** input.go:73-85 SeekTo (positions are never negative in gpeg) *)
Definition i_seek (i : input) (pos : nat) : bool * input :=
  let chunk_end := i_base i + i_nchunk i in
  if (pos <? chunk_end) && (i_base i <=? pos) then
    (true, Input (i_data i) (i_chunk i) (i_base i) (pos - i_base i) (i_furthest i))
  else
    let i' := i_refill i pos in (negb (i_nchunk i' =? 0), i').

(** input.go:91-104 Advance *)
Definition i_advance (i : input) (n : nat) : bool * input :=
  if i_nchunk i =? 0 then (false, i)
  else
    let i1 := Input (i_data i) (i_chunk i) (i_base i) (i_coff i + n) (i_furthest i) in
    if i_nchunk i1 <? i_coff i1 then (false, i_refill i1 (i_base i1 + i_coff i1))
    else if i_coff i1 =? i_nchunk i1 then (true, i_refill i1 (i_base i1 + i_coff i1))
    else (true, i1).

(** input.go:106-113 ReadAt and Slice pass through to the reader (input/reader.go:55-59) *)
Definition i_slice (i : input) (low high : nat) : list byte := read_at (i_data i) low (high - low).

(** input.go:116-118 Pos *)
Definition i_pos (i : input) : nat := i_base i + i_coff i.

(** input.go:126-128 ResetFurthest *)
Definition i_reset_furthest (i : input) : input :=
  Input (i_data i) (i_chunk i) (i_base i) (i_coff i) 0.
End Input.
