(** Model of memo/interval/lazy/array.go: the interval map kept in an array. *)
From Coq Require Import ZArith.
From Verif Require Import Base Spec_Interval.
Local Open Scope Z_scope.

Section Array.
Context {V : Type}.

(** lazy/array.go:12-15 slot, with lazy/tree.go:72-75 ivalue and lazy/interval.go:5-7 Interval; [s_ref]
    is the identity of the ivalue, which is also the handle that Add returns. *)
Record aslot := Slot { s_ref : nat; s_id : Z; s_low : Z; s_high : Z; s_val : V }.

(** lazy/array.go:8-10 Array; [a_next] numbers allocations *)
Record arr := Arr { a_slots : list aslot; a_next : nat }.
Definition ar_empty : arr := Arr [] 0.

(** lazy/array.go:21-35 FindLargest; [max] starts at 0 *)
Fixpoint ar_largest (id pos max : Z) (best : option V) (l : list aslot) : option V :=
  match l with
  | [] => best
  | s :: l =>
      if (s_low s =? pos) && (s_id s =? id) && (max <? s_high s)
      then ar_largest id pos (s_high s) (Some (s_val s)) l
      else ar_largest id pos max best l
  end.
Definition ar_find (a : arr) (id pos : Z) : option V := ar_largest id pos 0 None (a_slots a).

(** lazy/array.go:37-47 Add *)
Definition ar_add (a : arr) (id low high : Z) (v : V) : arr * nat :=
  (Arr (a_slots a ++ [Slot (a_next a) id low high v]) (S (a_next a)), a_next a).

(** lazy/interval.go:24-26 Overlaps *)
Definition s_overlaps (s : aslot) (low high : Z) : bool := (s_low s <? high) && (low <? s_high s).

(** lazy/array.go:50-57: an overlapping slot is replaced by the last one; [kept] are the ones before i *)
Fixpoint ar_drop (fuel : nat) (low high : Z) (kept l : list aslot) : list aslot :=
  match fuel, l with
  | S fuel, s :: rest =>
      if s_overlaps s low high then
        match rest with
        | [] => kept
        | _ :: _ => ar_drop fuel low high kept (last rest s :: removelast rest)
        end
      else ar_drop fuel low high (kept ++ [s]) rest
  | _, _ => kept ++ l
  end.

(** lazy/array.go:63-67 and lazy/interval.go:13-18 *)
Definition s_shift (low amt : Z) (s : aslot) : aslot :=
  if low <=? s_low s then Slot (s_ref s) (s_id s) (s_low s + amt) (s_high s + amt) (s_val s) else s.

(** lazy/array.go:49-68 RemoveAndShift *)
Definition ar_remove_and_shift (a : arr) (low high amt : Z) : arr :=
  let l := ar_drop (S (List.length (a_slots a))) low high [] (a_slots a) in
  if amt =? 0 then Arr l (a_next a) else Arr (map (s_shift low amt) l) (a_next a).

(** lazy/array.go:70-72 Size *)
Definition ar_size (a : arr) : nat := List.length (a_slots a).

(** lazy/array.go:17-19 Pos.  The handle of a value that was removed is not modelled. *)
Definition ar_pos (a : arr) (h : nat) : option Z :=
  match find (fun s => (s_ref s =? h)%nat) (a_slots a) with Some s => Some (s_low s) | None => None end.

(** the operations of Spec_Interval *)
Definition ar_step (a : arr) (o : iop V) : arr :=
  match o with
  | OAdd id low high v => fst (ar_add a id low high v)
  | OShift low high amt => ar_remove_and_shift a low high amt
  | OFind _ _ | OPos _ => a
  end.
Definition ar_run (tr : list (iop V)) : arr := fold_left ar_step tr ar_empty.
End Array.
Arguments aslot : clear implicits.
Arguments arr : clear implicits.
