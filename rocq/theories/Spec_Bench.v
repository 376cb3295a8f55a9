(** An editor that tells the table its edits byte by byte. *)
From Verif Require Import Base Model_Charset Model_Isa Model_Capture Model_Code Model_VM Model_Pattern Model_Table Spec_Peg Spec_Run Spec_Memo Model_Bench.
Local Open Scope nat_scope.

(** an edit that removes one byte or inserts one *)
Definition of_one_byte (e : edit) : Prop :=
  (ed_end e = S (ed_start e) /\ ed_text e = []) \/ (ed_end e = ed_start e /\ List.length (ed_text e) = 1).

(** a text and a table after parses for which the pattern has a result, any edits, and readings of the positions
    of captures; each edit is told to the table byte by byte (bench/edit.go:17-37) *)
Inductive typed {CS} (bufsz : nat) (check : nat -> CS -> list byte -> list byte -> nat -> Z -> Z -> CS * option nat)
    (threshold : Z) (p : pattern) (code : code) : list byte -> ttable -> Prop :=
| ty_new : forall s, typed bufsz check threshold p code s tt_new
| ty_parse : forall s t f cs r w' o st, typed bufsz check threshold p code s t -> check_ok check s ->
    peg s check [] p 0 ([], cs) r w' -> vm_exec bufsz (tree_table threshold) check None f code s t cs = Some (ROk o st) ->
    typed bufsz check threshold p code s (m_tbl st)
| ty_edit : forall s t e, typed bufsz check threshold p code s t -> edit_ok s e ->
    typed bufsz check threshold p code (edit_text s e) (edits_table t (edit_to_edits e))
| ty_ask : forall s t h, typed bufsz check threshold p code s t -> typed bufsz check threshold p code s (tt_ask t h).
