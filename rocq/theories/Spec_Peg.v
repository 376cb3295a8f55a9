(** Specification: the semantics of patterns as a big-step relation, following the usual definition
    of parsing expression grammars (ordered choice, greedy repetition, syntactic predicates),
    extended with captures, error reporting and user checkers. *)
From Verif Require Import Base Model_Charset Model_Isa Model_Capture Model_VM Model_Pattern.
Local Open Scope nat_scope.

(** capture trees as a user sees them: identifier, start, length, children *)
Inductive ctree := CNode (id : Z) (start len : nat) (kids : list ctree).

(** the capture trees denoted by captures of the code, in which dummy nodes are transparent *)
Fixpoint flat1 (c : capture) : list ctree :=
  match c with
  | Capture dummy id st ln cs =>
      let kids := (fix go (cs : list capture) : list ctree :=
                     match cs with [] => [] | c :: cs => flat1 c ++ go cs end) cs in
      if dummy then kids else [CNode id st ln kids]
  end.
Fixpoint flat (cs : list capture) : list ctree :=
  match cs with [] => [] | c :: cs => flat1 c ++ flat cs end.

(** result of matching at a position: failure, success up to position j with captures,
    or the parse is aborted at position j by an error without recovery *)
Inductive pres := RFail | RSucc (j : nat) (ts : list ctree) | RAbort (j : nat).

(** scopes: the definitions of the enclosing grammars, innermost first *)
Definition frame := list (string * pattern).
Definition env := list frame.

(** a name denotes the innermost definition, to be read in the scope of that grammar *)
Fixpoint lookup (E : env) (x : string) : option (pattern * env) :=
  match E with
  | [] => None
  | F :: E' => match assoc F x with Some b => Some (b, E) | None => lookup E' x end
  end.

(** zero-width assertions of package regexp/syntax: beginning/end of line, beginning/end of text,
    word boundary, no word boundary *)
Definition byte_before (s : list byte) (i : nat) : option byte :=
  match i with O => None | S j => nth_error s j end.
(** the characters of words: 0-9 A-Z _ a-z *)
Definition word_chars : list byte :=
  [x30; x31; x32; x33; x34; x35; x36; x37; x38; x39; x41; x42; x43; x44; x45; x46; x47; x48; x49; x4a; x4b; x4c;
   x4d; x4e; x4f; x50; x51; x52; x53; x54; x55; x56; x57; x58; x59; x5a; x5f; x61; x62; x63; x64; x65; x66; x67;
   x68; x69; x6a; x6b; x6c; x6d; x6e; x6f; x70; x71; x72; x73; x74; x75; x76; x77; x78; x79; x7a].
Definition word_char (b : byte) : bool := existsb (byte_eqb b) word_chars.
Definition word_at (o : option byte) : bool := match o with Some b => word_char b | None => false end.
Definition assertion (s : list byte) (i : nat) (bit : N) : bool :=
  let before := byte_before s i in
  let after := nth_error s i in
  let nl o := match o with Some b => byte_eqb b x0a | None => true end in
  match bit with
  | 0%N => nl before
  | 1%N => nl after
  | 2%N => match before with None => true | _ => false end
  | 3%N => match after with None => true | _ => false end
  | 4%N => xorb (word_at before) (word_at after)
  | 5%N => negb (xorb (word_at before) (word_at after))
  | _ => false
  end.
(** EmptyOp(op) matches if some assertion selected by the bits of [op] holds *)
Definition empty_op_holds (s : list byte) (i : nat) (op : byte) : bool :=
  existsb (fun bit => N.testbit (bN op) bit && assertion s i bit) [0; 1; 2; 3; 4; 5]%N.

Section Peg.
Variable s : list byte.
Variable CS : Type.
Variable check : nat -> CS -> list byte -> list byte -> nat -> Z -> Z -> CS * option nat.

(** what persists across backtracking: the errors reported so far and the checkers' state *)
Definition world : Type := (list (nat * string) * CS)%type.

Inductive peg : env -> pattern -> nat -> world -> pres -> world -> Prop :=
| peg_empty : forall E i w, peg E PEmpty i w (RSucc i []) w
| peg_lit_ok : forall E str i w, firstn (List.length str) (skipn i s) = str ->
    peg E (PLit str) i w (RSucc (i + List.length str) []) w
| peg_lit_fail : forall E str i w, firstn (List.length str) (skipn i s) <> str ->
    peg E (PLit str) i w RFail w
| peg_class_ok : forall E c i b w, nth_error s i = Some b -> cs_has c b = true ->
    peg E (PClass c) i w (RSucc (S i) []) w
| peg_class_fail : forall E c i b w, nth_error s i = Some b -> cs_has c b = false ->
    peg E (PClass c) i w RFail w
| peg_class_end : forall E c i w, nth_error s i = None ->
    peg E (PClass c) i w RFail w
| peg_dot_ok : forall E n i w, i + N.to_nat (bN n) <= List.length s ->
    peg E (PDot n) i w (RSucc (i + N.to_nat (bN n)) []) w
| peg_dot_fail : forall E n i w, List.length s < i + N.to_nat (bN n) ->
    peg E (PDot n) i w RFail w
| peg_emptyop_ok : forall E op i w, empty_op_holds s i op = true ->
    peg E (PEmptyOp op) i w (RSucc i []) w
| peg_emptyop_fail : forall E op i w, empty_op_holds s i op = false ->
    peg E (PEmptyOp op) i w RFail w
(* sequence *)
| peg_seq_ok : forall E p q i j ts w w1 k us w2,
    peg E p i w (RSucc j ts) w1 -> peg E q j w1 (RSucc k us) w2 ->
    peg E (PSeq p q) i w (RSucc k (ts ++ us)) w2
| peg_seq_no1 : forall E p q i w r w1,
    peg E p i w r w1 -> (forall j ts, r <> RSucc j ts) ->
    peg E (PSeq p q) i w r w1
| peg_seq_no2 : forall E p q i j ts w w1 r w2,
    peg E p i w (RSucc j ts) w1 -> peg E q j w1 r w2 -> (forall j ts, r <> RSucc j ts) ->
    peg E (PSeq p q) i w r w2
(* ordered choice *)
| peg_alt_1 : forall E p q i w r w1,
    peg E p i w r w1 -> r <> RFail -> peg E (PAlt p q) i w r w1
| peg_alt_2 : forall E p q i w w1 r w2,
    peg E p i w RFail w1 -> peg E q i w1 r w2 -> peg E (PAlt p q) i w r w2
(* repetition *)
| peg_star_end : forall E p i w w1,
    peg E p i w RFail w1 -> peg E (PStar p) i w (RSucc i []) w1
| peg_star_more : forall E p i j ts w w1 k us w2,
    peg E p i w (RSucc j ts) w1 -> peg E (PStar p) j w1 (RSucc k us) w2 ->
    peg E (PStar p) i w (RSucc k (ts ++ us)) w2
| peg_star_abort1 : forall E p i j w w1,
    peg E p i w (RAbort j) w1 -> peg E (PStar p) i w (RAbort j) w1
| peg_star_abort2 : forall E p i j ts w w1 k w2,
    peg E p i w (RSucc j ts) w1 -> peg E (PStar p) j w1 (RAbort k) w2 ->
    peg E (PStar p) i w (RAbort k) w2
| peg_plus : forall E p i w r w1,
    peg E (PSeq p (PStar p)) i w r w1 -> peg E (PPlus p) i w r w1
| peg_opt : forall E p i w r w1,
    peg E (PAlt p PEmpty) i w r w1 -> peg E (POpt p) i w r w1
(* predicates *)
| peg_not_ok : forall E p i w w1, peg E p i w RFail w1 -> peg E (PNot p) i w (RSucc i []) w1
| peg_not_fail : forall E p i j ts w w1, peg E p i w (RSucc j ts) w1 -> peg E (PNot p) i w RFail w1
| peg_not_abort : forall E p i j w w1, peg E p i w (RAbort j) w1 -> peg E (PNot p) i w (RAbort j) w1
| peg_and_ok : forall E p i j ts w w1, peg E p i w (RSucc j ts) w1 -> peg E (PAnd p) i w (RSucc i ts) w1
| peg_and_no : forall E p i w r w1, peg E p i w r w1 -> (forall j ts, r <> RSucc j ts) ->
    peg E (PAnd p) i w r w1
(* captures *)
| peg_cap_ok : forall E p id i j ts w w1, peg E p i w (RSucc j ts) w1 ->
    peg E (PCap p id) i w (RSucc j [CNode id i (j - i) ts]) w1
| peg_cap_no : forall E p id i w r w1, peg E p i w r w1 -> (forall j ts, r <> RSucc j ts) ->
    peg E (PCap p id) i w r w1
(* memoization has no meaning of its own *)
| peg_memo : forall E p id i w r w1, peg E p i w r w1 -> peg E (PMemo p id) i w r w1
(* user checks: called on the matched bytes; they may reject, or accept and consume n more bytes *)
| peg_check_ok : forall E p ck id flag i j ts w errs cs cs' n,
    peg E p i w (RSucc j ts) (errs, cs) ->
    check ck cs (firstn (j - i) (skipn i s)) s j id flag = (cs', Some n) ->
    peg E (PCheck p ck id flag) i w (RSucc (j + n) ts) (errs, cs')
| peg_check_reject : forall E p ck id flag i j ts w errs cs cs',
    peg E p i w (RSucc j ts) (errs, cs) ->
    check ck cs (firstn (j - i) (skipn i s)) s j id flag = (cs', None) ->
    peg E (PCheck p ck id flag) i w RFail (errs, cs')
| peg_check_no : forall E p ck id flag i w r w1, peg E p i w r w1 -> (forall j ts, r <> RSucc j ts) ->
    peg E (PCheck p ck id flag) i w r w1
(* errors *)
| peg_error : forall E m q i errs cs r w1,
    peg E q i (errs ++ [(i, m)], cs) r w1 -> peg E (PError m (Some q)) i (errs, cs) r w1
| peg_error_abort : forall E m i errs cs,
    peg E (PError m None) i (errs, cs) (RAbort i) (errs ++ [(i, m)], cs)
(* search: the first position from i on at which p matches *)
| peg_search_here : forall E p i w r w1,
    peg E p i w r w1 -> r <> RFail -> peg E (PSearch p) i w r w1
| peg_search_next : forall E p i w w1 r w2,
    peg E p i w RFail w1 -> i < List.length s -> peg E (PSearch p) (S i) w1 r w2 ->
    peg E (PSearch p) i w r w2
| peg_search_end : forall E p i w w1,
    peg E p i w RFail w1 -> List.length s <= i -> peg E (PSearch p) i w RFail w1
(* grammars and non-terminals *)
| peg_grammar : forall E defs start b i w r w1,
    assoc defs start = Some b -> peg (defs :: E) b i w r w1 ->
    peg E (PGrammar defs start) i w r w1
| peg_nonterm : forall E x b E' i w r w1,
    lookup E x = Some (b, E') -> peg E' b i w r w1 ->
    peg E (PNonTerm x None) i w r w1
| peg_inlined : forall E x q i w r w1,
    peg E q i w r w1 -> peg E (PNonTerm x (Some q)) i w r w1.
End Peg.
Arguments peg s {CS} check.
