(** Model of bench/edit.go: an edit as edits of single bytes. *)
From Verif Require Import Base Spec_Memo.
Local Open Scope nat_scope.

(** edit.go:17-37 EditToEdits: the removed bytes one by one, always at the start of the range, then the new
    bytes from left to right.  [seq] is the range of the loops' variable. *)
Definition edit_to_edits (e : edit) : list edit :=
  map (fun _ => Edit (ed_start e) (S (ed_start e)) []) (seq (ed_start e) (ed_end e - ed_start e)) ++
  map (fun i => Edit (ed_start e + i) (ed_start e + i) (firstn 1 (skipn i (ed_text e)))) (seq 0 (List.length (ed_text e))).

(** edit.go:39-47 ToSingleEdits *)
Definition to_single_edits (es : list edit) : list edit := List.concat (map edit_to_edits es).
