(** Model of lazyInterval.Pos (memo/interval/lazylog/tree.go:459-462), one access to memory at a time.

    Capture.Start and Capture.End (memo/capture.go:95-108) ask the handle of an entry for its position without the
    mutex of the table (memo/tree.go:25-61 holds it only inside of Get, Put and ApplyEdit), and the handle
    then writes to its node.  So goroutines that hold captures of one table run this code at the same time.

    Modelled: every read and every write of the fields pos, max and tstamp of a node and of the bounds of its
    intervals is one step, in the order of the source; steps of the goroutines are interleaved in any order.
    Simplified: each step sees the last write (Go promises less to programs with races); the pointers left, right and
    interval, the lengths and the list of shifts are fixed, as nothing here writes to them. *)
From Coq Require Import ZArith.
From Verif Require Import Base Model_Interval Model_Detach.
Local Open Scope Z_scope.

(** ** Memory *)

(** lazylog/tree.go:134-145 node and interval.go:5-8 interval: the fields that Pos reads or writes.  [FLow k] and
    [FHigh k] belong to the k-th interval of the node. *)
Inductive field := FPos | FMax | FTs | FLow (k : nat) | FHigh (k : nat).
Definition field_eqb (f g : field) : bool :=
  match f, g with
  | FPos, FPos | FMax, FMax | FTs, FTs => true
  | FLow k, FLow j | FHigh k, FHigh j => (k =? j)%nat
  | _, _ => false
  end.
Definition memory : Type := nat -> field -> Z.
Definition put (m : memory) (r : nat) (f : field) (v : Z) : memory :=
  fun r' f' => if ((r' =? r)%nat && field_eqb f' f)%bool then v else m r' f'.

(** the pointers of a node: left, right and the number of its intervals *)
Definition links : Type := nat -> option nat * option nat * nat.

(** ** Programs: reads, writes and their order *)
Inductive prog (A : Type) : Type :=
| Ret (a : A)
| Rd (r : nat) (f : field) (k : Z -> prog A)
| Wr (r : nat) (f : field) (v : Z) (k : prog A).
Arguments Ret {A} a. Arguments Rd {A} r f k. Arguments Wr {A} r f v k.

Fixpoint pbind {A B} (p : prog A) (q : A -> prog B) : prog B :=
  match p with
  | Ret a => q a
  | Rd r f k => Rd r f (fun v => pbind (k v) q)
  | Wr r f v k => Wr r f v (pbind k q)
  end.

Section Pos.
Variable lk : links.
Variable shs : list shift.

(** lazylog/tree.go:474-479 Shift: from the k-th interval on, c of them *)
Fixpoint p_ins (h : nat) (amt : Z) (k c : nat) : prog unit :=
  match c with
  | O => Ret tt
  | S c =>
      Rd h (FLow k) (fun l => Wr h (FLow k) (l + amt)
        (Rd h (FHigh k) (fun u => Wr h (FHigh k) (u + amt) (p_ins h amt (S k) c))))
  end.

(** lazylog/tree.go:464-472 High *)
Fixpoint p_high (h : nat) (k c : nat) (high : Z) : prog Z :=
  match c with
  | O => Ret high
  | S c =>
      Rd h (FHigh k) (fun u => if high <? u then Rd h (FHigh k) (fun u => p_high h (S k) c u) else p_high h (S k) c high)
  end.

(** lazylog/tree.go:181-191 updateMax *)
Definition p_max_child (h : nat) (c : option nat) : prog unit :=
  match c with
  | None => Ret tt
  | Some c => Rd h FMax (fun a => Rd c FMax (fun b => Wr h FMax (Z.max a b) (Ret tt)))
  end.
Definition p_update_max (h : nat) : prog unit :=
  let '(l, r, c) := lk h in
  pbind (p_max_child h r) (fun _ =>
  pbind (p_max_child h l) (fun _ =>
  Rd h FMax (fun a => pbind (p_high h 0 c 0) (fun b => Wr h FMax (Z.max a b) (Ret tt))))).

(** lazylog/tree.go:395-411 applyShift *)
Definition p_shift (h : nat) (s : shift) : prog unit :=
  Rd h FTs (fun t =>
    if Z.of_nat (sh_ts s) <=? t then Ret tt
    else Wr h FTs (Z.of_nat (sh_ts s))
      (Rd h FMax (fun m =>
        if m <? sh_idx s then Ret tt
        else Rd h FMax (fun m => Wr h FMax (m + sh_amt s)
          (Rd h FPos (fun p =>
            if sh_idx s <=? p then
              Rd h FPos (fun p => Wr h FPos (p + sh_amt s)
                (pbind (p_ins h (sh_amt s) 0 (snd (lk h))) (fun _ => p_update_max h)))
            else p_update_max h)))))).

(** lazylog/tree.go:421-427: the backward loop of applyShifts *)
Fixpoint p_start (h : nat) (j : nat) : prog nat :=
  match j with
  | O => Ret O
  | S j' =>
      Rd h FTs (fun t =>
        match nth_error shs j with
        | Some s => if Z.of_nat (sh_ts s) <=? t then Ret (S j) else p_start h j'
        | None => p_start h j'
        end)
  end.

(** lazylog/tree.go:428-430: the forward loop of applyShifts *)
Fixpoint p_loop (h : nat) (ss : list shift) : prog unit :=
  match ss with
  | [] => Ret tt
  | s :: ss => pbind (p_shift h s) (fun _ => p_loop h ss)
  end.

(** lazylog/tree.go:413-431 applyShifts *)
Definition p_shifts (h : nat) : prog unit :=
  match rev shs with
  | [] => Ret tt
  | s :: _ =>
      Rd h FTs (fun t =>
        if Z.of_nat (sh_ts s) <=? t then Ret tt
        else pbind (p_start h (List.length shs - 1)) (fun j => p_loop h (skipn j shs)))
  end.

(** lazylog/tree.go:459-462 lazyInterval.Pos *)
Definition p_pos (h : nat) : prog Z := pbind (p_shifts h) (fun _ => Rd h FPos (fun p => Ret p)).

(** a goroutine that asks for the positions of some handles, one after the other *)
Fixpoint p_asks (hs : list nat) : prog (list Z) :=
  match hs with
  | [] => Ret []
  | h :: hs => pbind (p_pos h) (fun p => pbind (p_asks hs) (fun ps => Ret (p :: ps)))
  end.

End Pos.

(** ** Goroutines *)
Definition one_step {A} (m : memory) (p : prog A) : memory * prog A :=
  match p with
  | Ret a => (m, Ret a)
  | Rd r f k => (m, k (m r f))
  | Wr r f v k => (put m r f v, k)
  end.
Fixpoint step_at {A} (m : memory) (i : nat) (ps : list (prog A)) : memory * list (prog A) :=
  match ps, i with
  | [], _ => (m, [])
  | p :: ps, O => let (m, p) := one_step m p in (m, p :: ps)
  | p :: ps, S i => let (m, ps) := step_at m i ps in (m, p :: ps)
  end.
(** the schedule says whose turn it is *)
Fixpoint go_on {A} (sched : list nat) (m : memory) (ps : list (prog A)) : memory * list (prog A) :=
  match sched with
  | [] => (m, ps)
  | i :: sched => let (m, ps) := step_at m i ps in go_on sched m ps
  end.

(** a program that nothing interrupts *)
Fixpoint alone {A} (m : memory) (p : prog A) : memory * A :=
  match p with
  | Ret a => (m, a)
  | Rd r f k => alone m (k (m r f))
  | Wr r f v k => alone (put m r f v) k
  end.

(** ** The memory and the pointers of a tree *)
Section Tree.
Context {V : Type}.
Fixpoint sub_at (h : nat) (t : tree V) : option (nd V * tree V * tree V) :=
  match t with
  | Leaf => None
  | Node n l r =>
      if (n_ref n =? h)%nat then Some (n, l, r)
      else match sub_at h l with Some x => Some x | None => sub_at h r end
  end.
Definition cell (n : nd V) (f : field) : Z :=
  match f with
  | FPos => n_pos n
  | FMax => n_max n
  | FTs => Z.of_nat (n_ts n)
  | FLow k => match nth_error (n_ins n) k with Some i => iv_low i | None => 0 end
  | FHigh k => match nth_error (n_ins n) k with Some i => iv_high i | None => 0 end
  end.
Definition memory_of (t : tree V) : memory :=
  fun h f => match sub_at h t with Some (n, _, _) => cell n f | None => 0 end.
Definition links_of (t : tree V) : links :=
  fun h => match sub_at h t with Some (n, l, r) => (ref_of l, ref_of r, List.length (n_ins n)) | None => (None, None, O) end.

(** goroutines that ask for positions after the history that made the tree t *)
Definition readers (t : itree V) (hss : list (list nat)) : list (prog (list Z)) :=
  map (p_asks (links_of (t_root t)) (t_shifts t)) hss.
Definition race (t : itree V) (hss : list (list nat)) (sched : list nat) : memory * list (prog (list Z)) :=
  go_on sched (memory_of (t_root t)) (readers t hss).
End Tree.
