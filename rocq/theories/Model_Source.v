(** Model of input/input.go over any io.ReaderAt: the array of the cache with the bytes that earlier
    fillings have left in it, and several inputs over one reader (Model_Input has the data itself and the
    valid part of the cache only). *)
From Verif Require Import Base Model_Input Model_Reader Model_Rope Spec_Input.
Local Open Scope nat_scope.

Section Source.
Context {S : Type}.
(** ReadAt of a reader in some state, with the offset and the length of the buffer: the bytes read and the
    new state; the error is ignored by package input (input.go:43, 65).  [None] is a panic. *)
Variable read : S -> nat -> nat -> option (list byte * S).
(** input.go:8 *)
Variable bufsz : nat.

(** input.go:14-29; [s_array] is chunk, with all its bytes, [s_n] is nchunk *)
Record sinput := SInput { s_array : list byte; s_n : nat; s_base : nat; s_coff : nat; s_far : nat }.

(** input.go:40-44 refill: ReadAt writes its bytes over the old ones *)
Definition s_refill (r : S) (i : sinput) (pos : nat) : option (S * sinput) :=
  match read r pos bufsz with
  | Some (b, r) => Some (r, SInput (b ++ skipn (List.length b) (s_array i)) (List.length b) pos 0 (s_far i))
  | None => None
  end.
(** input.go:32-38 NewInput *)
Definition s_new (r : S) : option (S * sinput) := s_refill r (SInput (repeat x00 bufsz) 0 0 0 0) 0.

(** input.go:49-56 Peek; an index out of range is a panic *)
Definition s_peek (i : sinput) : option (option byte * sinput) :=
  let pos := s_base i + s_coff i in
  let i' := SInput (s_array i) (s_n i) (s_base i) (s_coff i) (if s_far i <? pos then pos else s_far i) in
  match nth_error (s_array i) (s_coff i) with
  | Some b => Some (if s_n i =? 0 then None else Some b, i')
  | None => None
  end.
(** input.go:58-67 PeekBefore *)
Definition s_peek_before (r : S) (i : sinput) : option (option byte * S) :=
  if s_base i + s_coff i =? 0 then Some (None, r)
  else if 1 <=? s_coff i then
    match nth_error (s_array i) (s_coff i - 1) with
    | Some b => Some (if s_n i =? 0 then None else Some b, r)
    | None => None
    end
  else
    match read r (s_base i + s_coff i - 1) 1 with
    | Some (b, r) => Some (match b with [x] => Some x | _ => None end, r)
    | None => None
    end.
(** input.go:73-85 SeekTo *)
Definition s_seek (r : S) (i : sinput) (pos : nat) : option (bool * S * sinput) :=
  if (pos <? s_base i + s_n i) && (s_base i <=? pos) then
    Some (true, r, SInput (s_array i) (s_n i) (s_base i) (pos - s_base i) (s_far i))
  else
    match s_refill r i pos with Some (r, i) => Some (negb (s_n i =? 0), r, i) | None => None end.
(** input.go:91-104 Advance *)
Definition s_advance (r : S) (i : sinput) (n : nat) : option (bool * S * sinput) :=
  if s_n i =? 0 then Some (false, r, i)
  else
    let i := SInput (s_array i) (s_n i) (s_base i) (s_coff i + n) (s_far i) in
    if s_n i <? s_coff i then
      match s_refill r i (s_base i + s_coff i) with Some (r, i) => Some (false, r, i) | None => None end
    else if s_coff i =? s_n i then
      match s_refill r i (s_base i + s_coff i) with Some (r, i) => Some (true, r, i) | None => None end
    else Some (true, r, i).
(** input.go:111-113 and reader.go:55-59 Slice *)
Definition s_slice (r : S) (low high : nat) : option (list byte * S) := read r low (high - low).

(** one operation, as in Spec_Input.i_step; input.go:116-128 Pos, Furthest, ResetFurthest *)
Definition s_step (r : S) (i : sinput) (op : iop) : option (iobs * S * sinput) :=
  match op with
  | OpPeek => match s_peek i with Some (b, i) => Some (OByte b, r, i) | None => None end
  | OpPeekBefore => match s_peek_before r i with Some (b, r) => Some (OByte b, r, i) | None => None end
  | OpSeek p => match s_seek r i p with Some (b, r, i) => Some (OBool b, r, i) | None => None end
  | OpAdvance n => match s_advance r i n with Some (b, r, i) => Some (OBool b, r, i) | None => None end
  | OpPos => Some (ONat (s_base i + s_coff i), r, i)
  | OpFurthest => Some (ONat (s_far i), r, i)
  | OpReset => Some (ONat 0, r, SInput (s_array i) (s_n i) (s_base i) (s_coff i) 0)
  | OpSlice l h => match s_slice r l h with Some (b, r) => Some (OBytes b, r, i) | None => None end
  end.

(** ** Goroutines that read one reader, each with an input of its own *)
(** what a goroutine does: NewInput (which it does at the start of every Exec, vm/vm.go:34,49) or an
    operation on its last input.  Each calls ReadAt at most once and touches nothing else that is shared,
    so that the calls come in some order. *)
Inductive act := New | Do (op : iop).
(** the inputs of the goroutines; [None] before the first NewInput *)
Definition inputs : Type := nat -> option sinput.
Definition put_input (m : inputs) (k : nat) (i : sinput) : inputs := fun j => if j =? k then Some i else m j.
Fixpoint s_run (r : S) (m : inputs) (sched : list (nat * act)) : option (list (nat * iobs)) :=
  match sched with
  | [] => Some []
  | (k, New) :: sched =>
      match s_new r with Some (r, i) => s_run r (put_input m k i) sched | None => None end
  | (k, Do op) :: sched =>
      match m k with
      | None => s_run r m sched
      | Some i =>
          match s_step r i op with
          | Some (o, r, i) => option_map (cons (k, o)) (s_run r (put_input m k i) sched)
          | None => None
          end
      end
  end.
End Source.

(** ** Readers *)
(** a byte slice (bytes.NewReader, Go standard library) *)
Definition read_bytes (d : list byte) (off n : nat) : option (list byte * list byte) := Some (read_at d off n, d).
(** a rope, rope.go:432-445 *)
Definition read_rope (r : rope) (off n : nat) : option (list byte * rope) :=
  match rp_read_at r n off with Some (b, _) => Some (b, r) | None => None end.
(** a stream, reader.go:27-52; a mutex makes every call one step *)
Definition read_stream (w : wrapper) (off n : nat) : option (list byte * wrapper) :=
  let '(b, _, w) := w_read_at w off n in Some (b, w).
