(** The shape of a rope. *)
From Verif Require Import Base Model_Rope.
Local Open Scope nat_scope.

(** the number of inner nodes on the longest way down *)
Fixpoint rdepth (r : rope) : nat := match r with RNode _ x y _ _ => S (Nat.max (rdepth x) (rdepth y)) | _ => 0 end.
(** the texts of the leaves, from left to right *)
Fixpoint leaves (r : rope) : list (list byte) :=
  match r with RNode _ x y _ _ => leaves x ++ leaves y | RLeaf _ v _ _ | RNil _ v _ _ => [v] end.
(** the nodes that are not leaves *)
Fixpoint inner (r : rope) : list rope := match r with RNode _ x y _ _ => r :: inner x ++ inner y | _ => [] end.
(** the nodes, each before its children *)
Fixpoint nodes (r : rope) : list rope := match r with RNode _ x y _ _ => r :: nodes x ++ nodes y | _ => [r] end.

(** leaves of at most [k] bytes are possible with these options *)
Definition limits (k : nat) (o : opts) : Prop := 1 <= o_split o <= k /\ o_joinlen o <= S k.

(** the bytes of [b] are typed one after the other, each at the end of the rope *)
Definition typed (o : opts) (b : list byte) : option rope :=
  fold_left (fun r c => obind r (fun r => rp_insert r (rp_len r) [c])) b (rp_new o []).
