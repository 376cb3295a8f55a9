(** What it means that an interval tree is balanced.  The heights that the nodes store play no role here. *)
From Verif Require Import Base Model_Interval.

Section Balance.
Context {V : Type}.
(** the number of nodes on the longest way down *)
Fixpoint depth (t : tree V) : nat := match t with Leaf => 0 | Node _ l r => S (Nat.max (depth l) (depth r)) end.
Fixpoint balanced (t : tree V) : Prop :=
  match t with
  | Leaf => True
  | Node _ l r => depth l <= S (depth r) /\ depth r <= S (depth l) /\ balanced l /\ balanced r
  end.
(** every node knows its height *)
Fixpoint heights (t : tree V) : Prop :=
  match t with Leaf => True | Node n l r => n_height n = depth t /\ heights l /\ heights r end.
End Balance.
