(** Model of several goroutines that parse with one memo.TreeTable (memo/tree.go:12-49).  Get and Put hold the mutex of the
    table, so the operations of all goroutines happen one after the other.  An operation of one goroutine waits until the
    operations of others that come first are done. *)
From Coq Require Import ZArith.
From Verif Require Import Base Model_Capture Model_Code Model_VM Model_Table.
Local Open Scope nat_scope.

(** the operations of a parse on the table, tree.go:25-49.  A Put that stores nothing returns before it takes the mutex
    (tree.go:34-36); it is an operation here, without effect. *)
Inductive top :=
| TGet (id : Z) (pos : nat)
| TPut (id : Z) (start : nat) (len : option nat) (examined count : nat) (capt : list capture).
Definition top_do (threshold : Z) (t : ttable) (o : top) : ttable :=
  match o with
  | TGet id pos => snd (tt_get t id pos)
  | TPut id start len examined count capt => tt_put threshold t id start len examined count capt
  end.
(** an operation and the number of the goroutine that does it *)
Definition act : Type := nat * top.
Definition acts_do (threshold : Z) (t : ttable) (l : list act) : ttable := fold_left (fun t a => top_do threshold t (snd a)) l t.

(** What one goroutine sees: the table, the operations so far, and the operations of the others that come before its
    next operation, before the one after that, and so on. *)
Record shared := Shared { sh_tbl : ttable; sh_log : list act; sh_next : list (list act) }.

(** tree.go:26 and 46: Lock *)
Definition sh_lock (threshold : Z) (x : shared) : shared :=
  match sh_next x with
  | [] => x
  | l :: next => Shared (acts_do threshold (sh_tbl x) l) (sh_log x ++ l) next
  end.
(** the table as goroutine [me] uses it.  ApplyEdit is not used: Exec does not call it. *)
Definition shared_table (threshold : Z) (me : nat) : table_ops shared :=
  TableOps shared
    (fun x id pos =>
       let x := sh_lock threshold x in
       let (e, t) := tt_get (sh_tbl x) id pos in (e, Shared t (sh_log x ++ [(me, TGet id pos)]) (sh_next x)))
    (fun x id start len examined count capt =>
       let x := sh_lock threshold x in
       Shared (tt_put threshold (sh_tbl x) id start len examined count capt)
              (sh_log x ++ [(me, TPut id start len examined count capt)]) (sh_next x))
    (fun x _ _ _ => x).

(** the operations of the others in [l], cut at those of [me] *)
Fixpoint others (me : nat) (l : list act) : list (list act) :=
  match l with
  | [] => [[]]
  | a :: l =>
      if fst a =? me then [] :: others me l
      else match others me l with [] => [[a]] | x :: xs => (a :: x) :: xs end
  end.
(** what [me] sees of a table [t] when the operations [l] happen *)
Definition view (me : nat) (t : ttable) (l : list act) : shared := Shared t [] (others me l).

(** the state after [n] instructions, or at the end if there are fewer *)
Fixpoint state_after {T CS} (step : mstate T CS -> step_res T CS) (n : nat) (st : mstate T CS) : mstate T CS :=
  match n with
  | O => st
  | S n => match step st with Next st => state_after step n st | Done _ st => st | Crash => st end
  end.

(** Any number of goroutines call Exec with the program [code] on the text [s], each with its own checkers, and one table,
    which is [t] at the start.  [interleaving l]: the operations on the table can happen in the order [l].  Each of them is
    the next one that its goroutine does, after it saw the results of its earlier ones in that order. *)
Inductive interleaving {CS} (bufsz : nat) (check : nat -> CS -> list byte -> list byte -> nat -> Z -> Z -> CS * option nat)
    (threshold : Z) (code : code) (s : list byte) (t : ttable) (cs : nat -> CS) : list act -> Prop :=
| il_none : interleaving bufsz check threshold code s t cs []
| il_more : forall l me o n, interleaving bufsz check threshold code s t cs l ->
    firstn (S (List.length l)) (sh_log (m_tbl (state_after (vm_step bufsz (shared_table threshold me) check None code) n
      (init_state bufsz (shared_table threshold me) None s (view me t l) (cs me))))) = l ++ [(me, o)] ->
    interleaving bufsz check threshold code s t cs (l ++ [(me, o)]).
