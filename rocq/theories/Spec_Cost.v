(** How often and for how long the machine works. *)
From Coq Require Import ZArith.
From Verif Require Import Base Model_Charset Model_Isa Model_Capture Model_Input Model_Code Model_VM Model_Pattern Model_Table Model_Share Spec_Peg Spec_Run Spec_Memo.
Local Open Scope nat_scope.

(** Exec with the bytecode [code] on the text [s] and a new table executes at least [k] instructions, whatever the checkers do *)
Definition takes_at_least (bufsz : nat) (threshold : Z) (code : code) (s : list byte) (k : nat) : Prop :=
  forall CS check (cs : CS) f, f < k -> vm_exec bufsz (tree_table threshold) check None f code s tt_new cs = None.

(** tables after any parses, complete or not, with any programs and on any texts, but without edits *)
Inductive unedited (threshold : Z) : ttable -> Prop :=
| un_new : unedited threshold tt_new
| un_run : forall bufsz CS check code s (cs : CS) n t, unedited threshold t ->
    unedited threshold (m_tbl (state_after (vm_step bufsz (tree_table threshold) check None code) n
      (init_state bufsz (tree_table threshold) None s t cs))).

(** the table has an answer for the pattern [id] at [pos] *)
Definition answered (t : ttable) (id : Z) (pos : nat) : Prop := fst (tt_get t id pos) <> None.

(** instructions that take nothing from the stack unless they fail *)
Definition tests (i : insn) : bool := match i with IChar _ | ISet _ | IAny _ | IEmpty _ | IFail | IMemoOpen _ _ => true | _ => false end.
