(** What the interval maps of memo/interval are supposed to do, stated on a plain list. *)
From Coq Require Import ZArith.
From Verif Require Import Base Model_Interval.
Local Open Scope Z_scope.

Section Spec.
Context {V : Type}.

(** the operations of interval.Map (memo/interval/map.go:14-28) and of the handles returned by Add *)
Inductive iop :=
| OAdd (id low high : Z) (v : V)
| OFind (id pos : Z)
| OShift (low high amt : Z)          (* RemoveAndShift *)
| OPos (h : nat).                    (* Pos of a handle *)

(** a stored value: id, interval, value *)
Definition stored : Type := Z * Z * Z * V.
Definition stored_val (s : stored) : V := snd s.
Definition stored_key (s : stored) : Z * Z := let '(id, low, _, _) := s in (id, low).

(** half-open intervals [low,high) that share a point *)
Definition meets (low high low' high' : Z) : Prop := low < high' /\ low' < high.
Definition meets_b (low high low' high' : Z) : bool := (low <? high') && (low' <? high).

(** the reference map: a list.  RemoveAndShift drops the values whose interval meets [low,high) and
    moves by amt those that start at or after low. *)
Definition ref_step (m : list stored) (o : iop) : list stored :=
  match o with
  | OAdd id low high v => m ++ [(id, low, high, v)]
  | OShift low high amt =>
      map (fun '(id, l, h, v) => if low <=? l then (id, l + amt, h + amt, v) else (id, l, h, v))
          (filter (fun '(id, l, h, v) => negb (meets_b l h low high)) m)
  | OFind _ _ | OPos _ => m
  end.
Definition ref_run (tr : list iop) : list stored := fold_left ref_step tr [].

(** the same operations on the lazylog tree; [None] is never reached on calm histories (Props_Interval, C23_total) *)
Definition it_step (t : option (itree V)) (o : iop) : option (itree V) :=
  match t with
  | None => None
  | Some t =>
      match o with
      | OAdd id low high v => Some (fst (it_add t id low high v))
      | OFind id pos => Some (fst (it_find t id pos))
      | OShift low high amt => it_remove_and_shift t low high amt
      | OPos h => Some (fst (it_pos t h))
      end
  end.
Definition it_run_from (t : itree V) (tr : list iop) : option (itree V) := fold_left it_step tr (Some t).
Definition it_run (tr : list iop) : option (itree V) := it_run_from it_empty tr.

(** the operations' arguments make sense: an interval does not end before it starts, and a shift to
    the left moves at most over what was removed *)
Definition sane (o : iop) : Prop :=
  match o with
  | OAdd _ low high _ => 0 <= low < high
  | OShift low high amt => 0 <= low < high /\ low - high <= amt
  | OFind _ _ | OPos _ => True
  end.

Definition growing (o : iop) : Prop := match o with OShift _ _ amt => 0 <= amt | _ => True end.
Definition is_shift (o : iop) : Prop := match o with OShift _ _ _ => True | _ => False end.

(** an edit that makes the text at most one byte shorter, as typing and deleting single bytes do *)
Definition steady (o : iop) : Prop := match o with OShift _ _ amt => -1 <= amt | _ => True end.

(** A calm history: no edit makes the text shorter by more than one byte, except possibly the first edit. *)
Definition calm (tr : list iop) : Prop :=
  Forall sane tr /\
  (Forall steady tr \/
   exists a low high amt b, tr = a ++ OShift low high amt :: b /\
     Forall (fun o => ~ is_shift o) a /\ Forall steady b).

(** where a value that was at p before the history b is after it, if it was not removed *)
Definition moved (p : Z) (o : iop) : Z :=
  match o with OShift low _ amt => if low <=? p then p + amt else p | _ => p end.
Definition follow (p : Z) (b : list iop) : Z := fold_left moved b p.

(** no removal of the history meets the interval that starts at p *)
Fixpoint survives (p len : Z) (b : list iop) : Prop :=
  match b with
  | [] => True
  | o :: b => match o with OShift low high _ => ~ meets p (p + len) low high | _ => True end /\ survives (moved p o) len b
  end.

(** the values added by a history *)
Definition added (tr : list iop) : list V :=
  flat_map (fun o => match o with OAdd _ _ _ v => [v] | _ => [] end) tr.
End Spec.
Arguments iop : clear implicits.
Arguments stored : clear implicits.
