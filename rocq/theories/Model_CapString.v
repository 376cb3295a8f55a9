(** Model of memo/capture.go:131-142, Capture.String. *)
From Coq Require Import String.
From Verif Require Import Base Model_Isa Model_Capture Model_Listing.
Local Open Scope list_scope.
Local Open Scope nat_scope.

(** capture.go:133-142: the loop writes [", "] after every child but the last *)
Fixpoint cap_string (c : capture) : list byte :=
  match c with
  | Capture _ id _ _ cs =>
      lit "{" ++ dec_z id ++ lit ", [" ++
      (fix loop (cs : list capture) : list byte :=
         match cs with
         | [] => []
         | [c] => cap_string c
         | c :: cs => cap_string c ++ lit ", " ++ loop cs
         end) cs ++ lit "]}"
  end.
