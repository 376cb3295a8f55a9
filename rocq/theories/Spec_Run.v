(** What the result of a run of the machine says about a pattern, and the patterns for which
    compilation is shown correct. *)
From Verif Require Import Base Model_Charset Model_Isa Model_Capture Model_Code Model_VM Model_Pattern Spec_Peg Spec_Scope.
Local Open Scope nat_scope.

Definition o_ok (o : outcome) : bool := match o with Outcome a _ _ _ => a end.
Definition o_pos (o : outcome) : nat := match o with Outcome _ a _ _ => a end.
Definition o_capt (o : outcome) : option capture := match o with Outcome _ _ a _ => a end.
Definition o_errs (o : outcome) : list (nat * string) := match o with Outcome _ _ _ a => a end.

(** the captures that remain when only the interval from [lo] to [hi] of the input is of interest: a
    node stays, with what remains of its children, if it shares a byte with the interval or contains
    it (a node of length 0 stays if it lies strictly inside) *)
Fixpoint clip1 (lo hi : nat) (t : ctree) : list ctree :=
  match t with
  | CNode id st ln kids =>
      if (lo <? st + ln) && (st <? hi)
      then [CNode id st ln (flat_map (clip1 lo hi) kids)]
      else []
  end.
Definition clip (intrvl : option (nat * nat)) (ts : list ctree) : list ctree :=
  match intrvl with None => ts | Some (lo, hi) => flat_map (clip1 lo hi) ts end.

(** the outcome [o] of a run reports the result [r] of a pattern: success, with the end position and
    the captures; failure, without captures; or an abort at the position of the error *)
Definition agrees (intrvl : option (nat * nat)) (r : pres) (o : outcome) : Prop :=
  match r with
  | RSucc j ts => o_ok o = true /\ o_pos o = j /\ exists c, o_capt o = Some c /\ flat1 c = clip intrvl ts
  | RFail => o_ok o = false /\ o_capt o = None
  | RAbort j => o_ok o = false /\ o_pos o = j
  end.

(** every grammar inside [p] defines each name once, as a Go map does *)
Fixpoint unique_defs (p : pattern) : Prop :=
  match p with
  | PAlt l r | PSeq l r => unique_defs l /\ unique_defs r
  | PStar p | PPlus p | POpt p | PNot p | PAnd p | PCap p _ | PMemo p _ | PCheck p _ _ _ | PSearch p => unique_defs p
  | PGrammar defs _ =>
      NoDup (names defs) /\
      (fix go (l : list (string * pattern)) : Prop :=
         match l with [] => True | (_, q) :: l => unique_defs q /\ go l end) defs
  | PNonTerm _ (Some q) => unique_defs q
  | PError _ (Some q) => unique_defs q
  | _ => True
  end.

(** every Any inside [p] is Any(1): the machine does not restore the position when a choice starts
    with Any(n), n > 1, and fewer than n bytes are left *)
Fixpoint any_one (p : pattern) : Prop :=
  match p with
  | PAlt l r | PSeq l r => any_one l /\ any_one r
  | PStar p | PPlus p | POpt p | PNot p | PAnd p | PCap p _ | PMemo p _ | PCheck p _ _ _ | PSearch p => any_one p
  | PGrammar defs _ =>
      (fix go (l : list (string * pattern)) : Prop :=
         match l with [] => True | (_, q) :: l => any_one q /\ go l end) defs
  | PNonTerm _ (Some q) => any_one q
  | PError _ (Some q) => any_one q
  | PDot n => n = x01
  | _ => True
  end.

Definition supported (p : pattern) : Prop := well_scoped p /\ unique_defs p /\ any_one p.

(** every Any(n) inside [p] has n > 0 *)
Fixpoint any_pos (p : pattern) : Prop :=
  match p with
  | PAlt l r | PSeq l r => any_pos l /\ any_pos r
  | PStar p | PPlus p | POpt p | PNot p | PAnd p | PCap p _ | PMemo p _ | PCheck p _ _ _ | PSearch p => any_pos p
  | PGrammar defs _ =>
      (fix go (l : list (string * pattern)) : Prop :=
         match l with [] => True | (_, q) :: l => any_pos q /\ go l end) defs
  | PNonTerm _ (Some q) => any_pos q
  | PError _ (Some q) => any_pos q
  | PDot n => n <> x00
  | _ => True
  end.

(** patterns with Any(n), n > 1, run right on texts that fit in one chunk if the optimizer made no
    test instruction out of an Any(n), n > 1: [c] is the optimized instruction list *)
Definition wide (bufsz : nat) (s : list byte) (p : pattern) (c : program) : Prop :=
  well_scoped p /\ unique_defs p /\ any_pos p /\ List.length s <= bufsz /\
  (forall n l, In (ITestAny n l) c -> n = x01).

(** a user's checkers do not skip past the end of the input *)
Definition check_ok {CS} (check : nat -> CS -> list byte -> list byte -> nat -> Z -> Z -> CS * option nat) (s : list byte) : Prop :=
  forall k cs bs j id fl cs' n, check k cs bs s j id fl = (cs', Some n) -> j <= List.length s -> j + n <= List.length s.

(** [code] is what Encode(Compile(p)) gives, for some values of the global counters and with the
    given inlining threshold *)
Definition compiled (thr : nat) (p : pattern) (code : code) : Prop :=
  exists fuel st0 c st1, compile thr fuel p st0 = COk c st1 /\ encode c = Some code.
(** and the pattern may use Any(n) on the text [s] *)
Definition compiled_wide (thr bufsz : nat) (s : list byte) (p : pattern) (code : code) : Prop :=
  exists fuel st0 c st1, compile thr fuel p st0 = COk c st1 /\ encode c = Some code /\ wide bufsz s p c.

(** two results of runs look the same to the caller *)
Definition same_result {T CS} (x y : run_res T CS) : Prop :=
  match x, y with
  | ROk o a, ROk o' b => o = o' /\ m_tbl a = m_tbl b /\ m_cs a = m_cs b
  | RCrash, RCrash => True
  | _, _ => False
  end.
(** two machines, given as functions from fuel to result, do the same: both run forever or both stop
    with results that look the same *)
Definition same_runs {T CS} (f g : nat -> option (run_res T CS)) : Prop :=
  (forall n x, f n = Some x -> exists m y, g m = Some y /\ same_result x y) /\
  (forall n y, g n = Some y -> exists m x, f m = Some x /\ same_result x y).

(** byte offset of instruction number [k]: the sizes of the instructions before it *)
Definition offset_of (p : program) (k : nat) : nat := list_sum (map insn_size (firstn k p)).

(** two outcomes report the same match, errors and captures *)
Definition same_outcome (o o' : outcome) : Prop :=
  o_ok o = o_ok o' /\ o_errs o = o_errs o' /\
  (o_ok o = true -> o_pos o = o_pos o' /\ option_map flat1 (o_capt o) = option_map flat1 (o_capt o')).
