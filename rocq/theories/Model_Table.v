(** Model of memo/tree.go and memo/entry.go: the memoization table kept in an interval tree. *)
From Coq Require Import ZArith.
From Verif Require Import Base Model_Capture Model_VM Model_Interval.
Local Open Scope nat_scope.

(** entry.go:12-18 Entry; [e_len = None] is length -1.  The position handle (entry.go:17) is the place
    of the entry in the tree; [e_at] is the position at which the entry was stored.  setPos
    (entry.go:20-25) makes the entry the owner of its captures: from then on their positions are
    relative to the entry.  The model keeps the absolute positions of the time of Put and moves them
    together with the entry when it is read.  Simplification: a capture that already belongs to an
    entry stored earlier (capture.go:119-121) moves with that entry in the code, with the entry it is
    read through in the model. *)
Record entry := Entry { e_len : option nat; e_examined : nat; e_count : nat; e_capt : list capture; e_at : nat }.

(** the captures of an entry found at position [pos] (capture.go:95-100 Start) *)
Definition moved_capt (pos : nat) (e : entry) : list capture :=
  map (cap_shift (fun st => pos + st - e_at e)) (e_capt e).

(** tree.go:12-16 TreeTable; [None] means that an edit did not return (the loop of removeOverlaps, see
    Model_Interval).  Here there is one goroutine; Model_Share has several and the mutex. *)
Definition ttable : Type := option (itree entry).

(** tree.go:18-23 NewTreeTable *)
Definition tt_new : ttable := Some it_empty.

(** tree.go:25-31 Get *)
Definition tt_get (t : ttable) (id : Z) (pos : nat) : option mentry * ttable :=
  match t with
  | None => (None, None)
  | Some t =>
      let (t, v) := it_find t id (Z.of_nat pos) in
      (option_map (fun e => MEntry (e_len e) (e_count e) (moved_capt pos e)) v, Some t)
  end.

(** tree.go:33-49 Put *)
Definition tt_put (threshold : Z) (t : ttable) (id : Z) (start : nat) (len : option nat) (examined count : nat) (capt : list capture) : ttable :=
  match t with
  | None => None
  | Some t =>
      if (Z.of_nat examined <? threshold)%Z || match len with Some 0 => true | _ => false end then Some t
      else
        let examined := Nat.max examined (match len with Some l => l | None => 0 end) in
        Some (fst (it_add t id (Z.of_nat start) (Z.of_nat (start + examined)) (Entry len examined count capt start)))
  end.

(** tree.go:51-61 ApplyEdit *)
Definition tt_edit (t : ttable) (start en len : nat) : ttable :=
  match t with
  | None => None
  | Some t =>
      let low := Z.of_nat start in
      let high := if start =? en then (low + 1)%Z else Z.of_nat en in
      it_remove_and_shift t low high (Z.of_nat len - (Z.of_nat en - Z.of_nat start))
  end.

(** capture.go:95-100 Start of a capture that belongs to an entry: it asks the handle of the entry for
    its position (lazylog/tree.go:459-462 Pos), which changes a node of the tree.  [h] is the
    identity of the handle. *)
Definition tt_ask (t : ttable) (h : nat) : ttable := option_map (fun t => fst (it_pos t h)) t.

(** tree.go:63-70 AllValues *)
Definition tt_values (t : ttable) : list entry := match t with None => [] | Some t => it_values t end.

Definition tree_table (threshold : Z) : table_ops ttable := TableOps ttable tt_get (tt_put threshold) tt_edit.
