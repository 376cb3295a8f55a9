(** An editor that keeps its text in a rope and parses it with a memoization table. *)
From Verif Require Import Base Model_Charset Model_Isa Model_Capture Model_Code Model_VM Model_Pattern Model_Table Model_Rope Spec_Peg Spec_Run Spec_Memo Spec_Rope.
Local Open Scope nat_scope.

(** [session b r t]: the rope and the table after some parses and edits.  An edit removes a range of the rope
    and inserts new text at its start, and tells the table (ApplyEdit).  [b] tells whether there was an edit;
    from then on an edit does not make the text shorter by more than one byte (see C22). *)
Inductive session {CS} (bufsz : nat) (check : nat -> CS -> list byte -> list byte -> nat -> Z -> Z -> CS * option nat)
    (threshold : Z) (p : pattern) (code : code) : bool -> rope -> ttable -> Prop :=
| se_new : forall o s r, splits o -> rp_new o s = Some r -> session bufsz check threshold p code false r tt_new
| se_parse : forall b r s t f cs x w' o st, session bufsz check threshold p code b r t -> rp_value r = Some s -> check_ok check s ->
    peg s check [] p 0 ([], cs) x w' -> vm_exec bufsz (tree_table threshold) check None f code s t cs = Some (ROk o st) ->
    session bufsz check threshold p code b r (m_tbl st)
| se_edit : forall b r t e r1 r2, session bufsz check threshold p code b r t -> ed_start e <= ed_end e <= rp_len r -> b = false \/ gentle e ->
    rp_remove r (ed_start e) (ed_end e) = Some r1 -> rp_insert r1 (ed_start e) (ed_text e) = Some r2 ->
    session bufsz check threshold p code true r2 (tt_edit t (ed_start e) (ed_end e) (List.length (ed_text e)))
| se_ask : forall b r t h, session bufsz check threshold p code b r t -> session bufsz check threshold p code b r (tt_ask t h).
