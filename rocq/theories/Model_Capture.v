(** Model of memo/capture.go. *)
From Verif Require Import Base.
Local Open Scope nat_scope.

(** capture.go:13-21 [type Capture].  [dummy] is [typ == tDummy].  The code stores an offset
    relative to a memo entry once the capture has been memoized (setMEnt, capture.go:118-129) and
    adds the entry's current position back in Start (capture.go:95-100); the model stores the
    absolute start position, and re-bases it when an entry is read back from a table. *)
Inductive capture := Capture (dummy : bool) (id : Z) (start len : nat) (children : list capture).

Definition cap_dummy (c : capture) : bool := match c with Capture d _ _ _ _ => d end.
Definition cap_id (c : capture) : Z := match c with Capture _ i _ _ _ => i end.
Definition cap_start (c : capture) : nat := match c with Capture _ _ s _ _ => s end.
Definition cap_len (c : capture) : nat := match c with Capture _ _ _ l _ => l end.
Definition cap_children (c : capture) : list capture := match c with Capture _ _ _ _ cs => cs end.

(** capture.go:106-108 End *)
Definition cap_end (c : capture) : nat := cap_start c + cap_len c.

(** capture.go:23-32 NewCaptureNode *)
Definition new_node (id : Z) (start len : nat) (cs : list capture) : capture := Capture false id start len cs.

(** capture.go:34-43 NewCaptureDummy *)
Definition new_dummy (start len : nat) (cs : list capture) : capture := Capture true 0 start len cs.

(** Shift by the movement of the memo entry that owns the capture. *)
Fixpoint cap_shift (f : nat -> nat) (c : capture) : capture :=
  match c with Capture d id s l cs => Capture d id (f s) l (map (cap_shift f) cs) end.

(** capture.go:83-93 NumChildren *)
Fixpoint num_children (c : capture) : nat :=
  match c with
  | Capture _ _ _ _ cs =>
      (fix go (cs : list capture) : nat :=
         match cs with
         | [] => 0
         | ch :: cs => (if cap_dummy ch then num_children ch else 1) + go cs
         end) cs
  end.

(** capture.go:45-69 ChildIterator: the closure's state is the list of children not yet consumed
    (the index i into c.children) and the sub-iterator of the current dummy child, if any. *)
Inductive iter := Iter (rest : list capture) (sub : option iter).

Definition child_iterator (c : capture) : iter := Iter (cap_children c) None.

(** one call of the closure (capture.go:48-67); recursion through [ret()] and through the
    sub-iterator is bounded by fuel, [None] is out of fuel *)
Fixpoint iter_next (fuel : nat) (it : iter) : option (option capture * iter) :=
  match fuel with
  | O => None
  | S fuel =>
    match it with
    | Iter [] sub => Some (None, it)                                  (* i >= len(c.children) *)
    | Iter (ch :: rest) sub =>
        let sub := match sub with
                   | Some s => Some s
                   | None => if cap_dummy ch then Some (child_iterator ch) else None
                   end in
        match sub with
        | Some s =>
            match iter_next fuel s with
            | None => None
            | Some (Some c, s') => Some (Some c, Iter (ch :: rest) (Some s'))
            | Some (None, _) => iter_next fuel (Iter rest None)        (* subit = nil; i++; ret() *)
            end
        | None => Some (Some ch, Iter rest None)                       (* i++; return ch *)
        end
    end
  end.

(** draining an iterator: the usual loop [for ch := it(); ch != nil; ch = it()] *)
Fixpoint iter_drain (fuel : nat) (it : iter) : option (list capture) :=
  match fuel with
  | O => None
  | S f =>
    match iter_next fuel it with
    | None => None
    | Some (None, _) => Some []
    | Some (Some c, it') =>
        match iter_drain f it' with Some l => Some (c :: l) | None => None end
    end
  end.

(** capture.go:71-81 Child *)
Fixpoint child_loop (fuel : nat) (it : iter) (i n : nat) : option (option capture) :=
  match fuel with
  | O => None
  | S f =>
    match iter_next fuel it with
    | None => None
    | Some (None, _) => Some None
    | Some (Some c, it') => if i =? n then Some (Some c) else child_loop f it' (S i) n
    end
  end.
Definition cap_child (fuel : nat) (c : capture) (n : nat) : option (option capture) :=
  child_loop fuel (child_iterator c) 0 n.
