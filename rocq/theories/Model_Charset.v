(** Model of charset/charset.go. *)
From Verif Require Import Base.
Local Open Scope N_scope.

(** charset.go:14-18 [type Set struct { Bits [4]uint64 }].  A word is an [N]; every
    operation below keeps words below 2^64 ([cs_wf]). *)
Record cset := CSet { cw0 : N; cw1 : N; cw2 : N; cw3 : N }.

(** charset.go:24-26 [type SmallSet struct { Bits [2]uint64 }] *)
Record sset := SSet { sw0 : N; sw1 : N }.

(** the zero value of a Set: [var set Set] *)
Definition cs_zero : cset := CSet 0 0 0 0.

(** [uint64(1) << n], n < 64 at every use *)
Definition bit64 (n : N) : N := N.shiftl 1 n mod 2 ^ 64.

(** [^w] on uint64 *)
Definition not64 (w : N) : N := N.lxor w (2 ^ 64 - 1).

(** [bits.OnesCount64] (Go standard library) *)
Definition popcount (w : N) : nat :=
  length (filter (N.testbit w) (map N.of_nat (seq 0 64))).

(** the switch in charset.go:57-70 (New) and charset.go:81-94 (Range):
    [set.Bits[k] |= bit] for the word k that holds character [r] *)
Definition cs_setbit (c : cset) (r : N) : cset :=
  if r <? 64 then CSet (N.lor (cw0 c) (bit64 r)) (cw1 c) (cw2 c) (cw3 c)
  else if r <? 128 then CSet (cw0 c) (N.lor (cw1 c) (bit64 (r - 64))) (cw2 c) (cw3 c)
  else if r <? 192 then CSet (cw0 c) (cw1 c) (N.lor (cw2 c) (bit64 (r - 128))) (cw3 c)
  else CSet (cw0 c) (cw1 c) (cw2 c) (N.lor (cw3 c) (bit64 (r - 192))).

(** charset.go:54-74 New *)
Definition cs_new (chars : list byte) : cset :=
  fold_left (fun c r => cs_setbit c (bN r)) chars cs_zero.

(** charset.go:78-98 Range: [for c := int(low); c <= int(high); c++] *)
Definition cs_range (low high : byte) : cset :=
  fold_left (fun c k => cs_setbit c (N.of_nat k))
    (seq (N.to_nat (bN low)) (N.to_nat (bN high + 1 - bN low))) cs_zero.

(** charset.go:102-106 Complement *)
Definition cs_compl (c : cset) : cset :=
  CSet (not64 (cw0 c)) (not64 (cw1 c)) (not64 (cw2 c)) (not64 (cw3 c)).

(** charset.go:109-113 Add *)
Definition cs_add (c c1 : cset) : cset :=
  CSet (N.lor (cw0 c1) (cw0 c)) (N.lor (cw1 c1) (cw1 c))
       (N.lor (cw2 c1) (cw2 c)) (N.lor (cw3 c1) (cw3 c)).

(** charset.go:116-120 Sub *)
Definition cs_sub (c c1 : cset) : cset :=
  CSet (N.land (not64 (cw0 c1)) (cw0 c)) (N.land (not64 (cw1 c1)) (cw1 c))
       (N.land (not64 (cw2 c1)) (cw2 c)) (N.land (not64 (cw3 c1)) (cw3 c)).

(** charset.go:123-125 Size *)
Definition cs_size (c : cset) : nat :=
  (popcount (cw0 c) + popcount (cw1 c) + popcount (cw2 c) + popcount (cw3 c))%nat.

(** array indexing [c.Bits[i]], i < 4 *)
Definition cs_word (c : cset) (i : N) : N :=
  if i =? 0 then cw0 c else if i =? 1 then cw1 c else if i =? 2 then cw2 c else cw3 c.

(** charset.go:129-131 Has: [c.Bits[r>>6] & (uint64(1)<<(r&63)) != 0] *)
Definition cs_has (c : cset) (r : byte) : bool :=
  negb (N.land (cs_word c (N.shiftr (bN r) 6)) (bit64 (N.land (bN r) 63)) =? 0).

(** charset.go:41-43 IsSmall *)
Definition cs_is_small (c : cset) : bool := (cw2 c =? 0) && (cw3 c =? 0).

(** charset.go:46-50 SmallSet *)
Definition cs_small (c : cset) : sset := SSet (cw0 c) (cw1 c).

(** charset.go:29-31 SmallSet.Size *)
Definition ss_size (c : sset) : nat := (popcount (sw0 c) + popcount (sw1 c))%nat.

(** charset.go:35-37 SmallSet.Has; the array has two words, so indexing with r >= 128
    is a Go panic: [None]. *)
Definition ss_has (c : sset) (r : byte) : option bool :=
  let i := N.shiftr (bN r) 6 in
  if i <? 2 then
    Some (negb (N.land (if i =? 0 then sw0 c else sw1 c) (bit64 (N.land (bN r) 63)) =? 0))
  else None.

(** Go's [==] on Set values (struct of arrays of words) *)
Definition cs_eqb (a b : cset) : bool :=
  (cw0 a =? cw0 b) && (cw1 a =? cw1 b) && (cw2 a =? cw2 b) && (cw3 a =? cw3 b).

(** words fit in 64 bits: holds of every Go value *)
Definition cs_wf (c : cset) : Prop :=
  cw0 c < 2 ^ 64 /\ cw1 c < 2 ^ 64 /\ cw2 c < 2 ^ 64 /\ cw3 c < 2 ^ 64.
