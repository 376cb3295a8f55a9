(** Specification of a byte cursor: the data, an index into it, and the largest index
    at which a byte was requested. *)
From Verif Require Import Base Model_Input.

Record cursor := Cursor { c_data : list byte; c_pos : nat; c_far : nat }.

(** operations available to a client *)
Inductive iop :=
| OpPeek | OpPeekBefore | OpSeek (p : nat) | OpAdvance (n : nat) | OpPos | OpFurthest | OpReset
| OpSlice (low high : nat).

(** observable results *)
Inductive iobs :=
| OByte (b : option byte) | OBool (b : bool) | ONat (n : nat) | OBytes (l : list byte).

(** [OpAdvance n] is specified for the calls on which the specification and the
    documentation of Advance agree: n = 1. *)
Definition cursor_step (c : cursor) (op : iop) : iobs * cursor :=
  match op with
  | OpPeek => (OByte (nth_error (c_data c) (c_pos c)), Cursor (c_data c) (c_pos c) (Nat.max (c_far c) (c_pos c)))
  | OpPeekBefore => (OByte (match c_pos c with O => None | S p => nth_error (c_data c) p end), c)
  | OpSeek p => (OBool (p <? length (c_data c)), Cursor (c_data c) p (c_far c))
  | OpAdvance n =>
      if c_pos c + n <=? length (c_data c)
      then (OBool true, Cursor (c_data c) (c_pos c + n) (c_far c))
      else (OBool false, c)
  | OpPos => (ONat (c_pos c), c)
  | OpFurthest => (ONat (c_far c), c)
  | OpReset => (ONat 0, Cursor (c_data c) (c_pos c) 0)
  | OpSlice low high => (OBytes (firstn (high - low) (skipn low (c_data c))), c)
  end.

Fixpoint cursor_run (c : cursor) (ops : list iop) : list iobs :=
  match ops with
  | [] => []
  | op :: ops => let (o, c') := cursor_step c op in o :: cursor_run c' ops
  end.

(** client programs that only ever advance by one byte *)
Definition unit_advance (op : iop) : Prop := match op with OpAdvance n => n = 1 | _ => True end.

(** Driver: the same client programs run against the model of the code. *)
Section Driver.
Variable bufsz : nat.

(** one step of the implementation *)
Definition i_step (i : input) (op : iop) : iobs * input :=
  match op with
  | OpPeek => let (b, i') := i_peek i in (OByte b, i')
  | OpPeekBefore => (OByte (i_peek_before i), i)
  | OpSeek p => let (b, i') := i_seek bufsz i p in (OBool b, i')
  | OpAdvance n => let (b, i') := i_advance bufsz i n in (OBool b, i')
  | OpPos => (ONat (i_pos i), i)
  | OpFurthest => (ONat (i_furthest i), i)
  | OpReset => (ONat 0, i_reset_furthest i)
  | OpSlice l h => (OBytes (i_slice i l h), i)
  end.

Fixpoint i_run (i : input) (ops : list iop) : list iobs :=
  match ops with
  | [] => []
  | op :: ops => let (o, i') := i_step i op in o :: i_run i' ops
  end.

(** reachable states *)
Inductive reach (data : list byte) : input -> Prop :=
| reach_new : reach data (i_new bufsz data)
| reach_step : forall i op, reach data i -> reach data (snd (i_step i op)).

End Driver.
