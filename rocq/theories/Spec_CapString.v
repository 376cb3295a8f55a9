(** What the text of a capture shows. *)
From Verif Require Import Base Model_Capture Spec_Peg.
Local Open Scope nat_scope.

(** identifiers, nested *)
Inductive ids := Ids (id : Z) (kids : list ids).

(** of a capture with its internal nodes, *)
Fixpoint shape (c : capture) : ids := match c with Capture _ id _ _ cs => Ids id (map shape cs) end.

(** and of a capture as a user sees it *)
Fixpoint bare (t : ctree) : ids := match t with CNode id _ _ kids => Ids id (map bare kids) end.

(** no internal nodes *)
Inductive solid : capture -> Prop := solid_node id st ln cs : Forall solid cs -> solid (Capture false id st ln cs).
