(** What it means that a lazy interval tree is balanced.  The heights that the nodes store play no role here. *)
From Verif Require Import Base Model_Interval Model_Lazy.

Section Balance.
Context {V : Type}.
(** the number of nodes on the longest way down *)
Fixpoint ldepth (t : ltree V) : nat := match t with LLeaf => 0 | LNode _ l r => S (Nat.max (ldepth l) (ldepth r)) end.
Fixpoint lbalanced (t : ltree V) : Prop :=
  match t with
  | LLeaf => True
  | LNode _ l r => ldepth l <= S (ldepth r) /\ ldepth r <= S (ldepth l) /\ lbalanced l /\ lbalanced r
  end.
(** every node knows its height *)
Fixpoint lheights (t : ltree V) : Prop :=
  match t with LLeaf => True | LNode n l r => ln_height n = ldepth t /\ lheights l /\ lheights r end.
End Balance.
