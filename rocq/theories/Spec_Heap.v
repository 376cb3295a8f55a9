(** What a run of the machine with slices says about a pattern. *)
From Coq Require Import ZArith.
From Verif Require Import Base Model_Charset Model_Isa Model_Capture Model_Code Model_Interval Model_Table Model_VM Model_Heap Model_Pattern Spec_Peg Spec_Scope Spec_Run Spec_Memo.
Local Open Scope nat_scope.

(** a user who follows the pointers of [c] in the heap [h] sees the tree [v] *)
Definition sees (h : heap) (c : hcap) (v : capture) : Prop := exists n, view n h c = Some v.

(** the outcome of a run with slices and of one with lists are the same to a user *)
Definition same_outcome (h : heap) (o : houtcome) (o' : outcome) : Prop :=
  match o, o' with
  | HOutcome b p c e, Outcome b' p' c' e' =>
      b = b' /\ p = p' /\ e = e' /\ match c, c' with None, None => True | Some c, Some v => sees h c v | _, _ => False end
  end.
(** [agrees] of Spec_Run *)
Definition hagrees (r : pres) (h : heap) (o : houtcome) : Prop :=
  match o with
  | HOutcome b p c _ =>
      match r with
      | RSucc j ts => b = true /\ p = j /\ exists c0 v, c = Some c0 /\ sees h c0 v /\ flat1 v = ts
      | RFail => b = false /\ c = None
      | RAbort j => b = false /\ p = j
      end
  end.
Definition ho_errs (o : houtcome) : list (nat * string) := match o with HOutcome _ _ _ e => e end.
Definition ho_capt (o : houtcome) : option hcap := match o with HOutcome _ _ c _ => c end.

Section On.
Variable s : list byte.
Variable CS : Type.
Variable check : nat -> CS -> list byte -> list byte -> nat -> Z -> Z -> CS * option nat.
(** a memoized pattern gives at most [n] captures (counted without those inside of them) *)
Definition memo_few (n : nat) (p : pattern) : Prop := forall id E q, memoized p id E q ->
  forall i w j ts w', peg s check E q i w (RSucc j ts) w' -> List.length ts <= n.
End On.
Arguments memo_few s {CS} check n p.

(** a bound on the number of captures of a pattern, read off the pattern; [None] is no bound *)
Fixpoint capt_bound (p : pattern) : option nat :=
  match p with
  | PEmpty | PLit _ | PClass _ | PDot _ | PEmptyOp _ | PNot _ | PError _ None => Some 0
  | PCap _ _ => Some 1
  | PSeq l r => match capt_bound l, capt_bound r with Some a, Some b => Some (a + b) | _, _ => None end
  | PAlt l r => match capt_bound l, capt_bound r with Some a, Some b => Some (Nat.max a b) | _, _ => None end
  | PStar q | PPlus q => match capt_bound q with Some 0 => Some 0 | _ => None end
  | POpt q | PAnd q | PMemo q _ | PCheck q _ _ _ | PSearch q | PNonTerm _ (Some q) | PError _ (Some q) => capt_bound q
  | PNonTerm _ None | PGrammar _ _ => None
  end.

(** as [compiled_memo], for a pattern in which nothing is repeated that is memoized: Compile takes no
    memo ids for memo trees *)
Definition compiled_plain (thr : nat) (p : pattern) (code : code) : Prop :=
  exists fuel st0 c st1, memo_below p (cs_memo st0) /\ compile thr fuel p st0 = COk c st1 /\ encode c = Some code /\ cs_memo st1 = cs_memo st0.

(** the patterns whose memoized captures are shown to survive the sharing of arrays *)
Definition shareable {CS} (thr : nat) (check : nat -> CS -> list byte -> list byte -> nat -> Z -> Z -> CS * option nat)
    (s : list byte) (p : pattern) (code : code) : Prop :=
  (compiled_plain thr p code /\ memo_few s check 2 p) \/ (compiled_memo thr p code /\ memo_few s check 0 p).

(** heap and table after some parses of the text [s] for which the pattern has a result *)
Inductive hafter_runs {CS} (grow : policy) (bufsz : nat) (check : nat -> CS -> list byte -> list byte -> nat -> Z -> Z -> CS * option nat)
    (threshold : Z) (p : pattern) (code : code) (s : list byte) : heap * httable -> heap * httable -> Prop :=
| hruns_none : forall t, hafter_runs grow bufsz check threshold p code s t t
| hruns_more : forall h t f cs r w' o st t', peg s check [] p 0 ([], cs) r w' ->
    hvm_exec grow bufsz (htree_table threshold) check None f code s h t cs = Some (HROk o st) ->
    hafter_runs grow bufsz check threshold p code s (h_heap st, h_tbl st) t' -> hafter_runs grow bufsz check threshold p code s (h, t) t'.

(** the growth policy gives a slice of two elements no more room than it needs *)
Definition tight2 (grow : policy) : Prop := grow 1 2 <= 2.
