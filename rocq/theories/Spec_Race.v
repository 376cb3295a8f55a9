(** What a goroutine that asks for the position of a value should be told. *)
From Coq Require Import ZArith.
From Verif Require Import Base Model_Interval Spec_Interval.
Local Open Scope Z_scope.

(** After the history tr, h is the handle of a value that is still in the tree t, and the value is now at p: at the
    place where it was added, moved by the edits since then. *)
Definition stands {V} (tr : list (iop V)) (t : itree V) (h : nat) (p : Z) : Prop :=
  exists a id low high v b ta, tr = a ++ OAdd id low high v :: b /\ ~ In v (added a) /\ ~ In v (added b) /\
    it_run a = Some ta /\ h = snd (it_add ta id low high v) /\ In v (it_values t) /\ p = follow low b.

(** no handle is asked by two goroutines *)
Definition apart {A} (hss : list (list (nat * A))) : Prop :=
  forall i j x y h a b, i <> j -> nth_error hss i = Some x -> nth_error hss j = Some y -> In (h, a) x -> In (h, b) y -> False.
