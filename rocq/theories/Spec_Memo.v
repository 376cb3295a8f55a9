(** Memoization as a user sees it: which patterns are memoized in a pattern, when memoizing a pattern
    makes sense, and the parses and edits that a table goes through. *)
From Verif Require Import Base Model_Charset Model_Isa Model_Capture Model_Code Model_VM Model_Pattern Model_Table Spec_Peg Spec_Run.
Local Open Scope nat_scope.

(** [q] in scope [E'] is used directly by [p] in scope [E] *)
Inductive child : env -> pattern -> env -> pattern -> Prop :=
| ch_alt_l : forall E l r, child E (PAlt l r) E l
| ch_alt_r : forall E l r, child E (PAlt l r) E r
| ch_seq_l : forall E l r, child E (PSeq l r) E l
| ch_seq_r : forall E l r, child E (PSeq l r) E r
| ch_star : forall E q, child E (PStar q) E q
| ch_plus : forall E q, child E (PPlus q) E q
| ch_opt : forall E q, child E (POpt q) E q
| ch_not : forall E q, child E (PNot q) E q
| ch_and : forall E q, child E (PAnd q) E q
| ch_cap : forall E q id, child E (PCap q id) E q
| ch_memo : forall E q id, child E (PMemo q id) E q
| ch_check : forall E q k id fl, child E (PCheck q k id fl) E q
| ch_search : forall E q, child E (PSearch q) E q
| ch_error : forall E m q, child E (PError m (Some q)) E q
| ch_grammar : forall E defs start k q, In (k, q) defs -> child E (PGrammar defs start) (defs :: E) q
| ch_nonterm : forall E x q E', lookup E x = Some (q, E') -> child E (PNonTerm x None) E' q
| ch_inlined : forall E x q, child E (PNonTerm x (Some q)) E q.

(** [q] in scope [E'] is [p] in scope [E] or used by it, directly or not *)
Inductive part : env -> pattern -> env -> pattern -> Prop :=
| part_self : forall E p, part E p E p
| part_step : forall E p E' q E'' r, child E p E' q -> part E' q E'' r -> part E p E'' r.

(** the memoized patterns of [p]: pattern [q] in scope [E], with its memo id *)
Definition memoized (p : pattern) (id : Z) (E : env) (q : pattern) : Prop := part [] p E (PMemo q id).

(** all memo ids are at most [m], the value of the global counter memoId (pattern.go:37-57) *)
Definition memo_below (p : pattern) (m : Z) : Prop := forall id E q, memoized p id E q -> (id <= m)%Z.

(** as [compiled], for a counter that MemoId and Memo have moved past the ids of the pattern *)
Definition compiled_memo (thr : nat) (p : pattern) (code : code) : Prop :=
  exists fuel st0 c st1, memo_below p (cs_memo st0) /\ compile thr fuel p st0 = COk c st1 /\ encode c = Some code.

Section On.
Variable s : list byte.
Variable CS : Type.
Variable check : nat -> CS -> list byte -> list byte -> nat -> Z -> Z -> CS * option nat.

(** a memo id stands for one thing *)
Definition memo_agree (p : pattern) : Prop := forall id E q E' q', memoized p id E q -> memoized p id E' q' ->
  forall i w r w', peg s check E q i w r w' -> peg s check E' q' i w r w'.

(** the result of a memoized pattern depends on the position only: it reports no errors, and neither
    changes nor reads the state of the checkers *)
Definition memo_pure (p : pattern) : Prop := forall id E q, memoized p id E q ->
  forall i w r w', peg s check E q i w r w' -> w' = w /\ forall v, peg s check E q i v r v.
End On.
Arguments memo_agree s {CS} check p.
Arguments memo_pure s {CS} check p.

(** a sufficient condition for [memo_pure]: no checkers and no errors inside of memoized patterns *)
Definition effectless (p : pattern) : Prop := match p with PCheck _ _ _ _ | PError _ _ => False | _ => True end.
Definition memo_effectless (p : pattern) : Prop := forall id E q E' q', memoized p id E q -> part E q E' q' -> effectless q'.

(** a table after some parses of the text [s] for which the pattern has a result, where the positions of captures may be read
    at any time *)
Inductive after_runs {CS} (bufsz : nat) (check : nat -> CS -> list byte -> list byte -> nat -> Z -> Z -> CS * option nat)
    (threshold : Z) (p : pattern) (code : code) (s : list byte) : ttable -> ttable -> Prop :=
| runs_none : forall t, after_runs bufsz check threshold p code s t t
| runs_more : forall t f cs r w' o st t', peg s check [] p 0 ([], cs) r w' ->
    vm_exec bufsz (tree_table threshold) check None f code s t cs = Some (ROk o st) ->
    after_runs bufsz check threshold p code s (m_tbl st) t' -> after_runs bufsz check threshold p code s t t'
| runs_ask : forall t h t', after_runs bufsz check threshold p code s (tt_ask t h) t' -> after_runs bufsz check threshold p code s t t'.

(** ** Edits *)
(** replace the bytes from [ed_start] to [ed_end] by [ed_text] *)
Record edit := Edit { ed_start : nat; ed_end : nat; ed_text : list byte }.
Definition edit_text (s : list byte) (e : edit) : list byte := firstn (ed_start e) s ++ ed_text e ++ skipn (ed_end e) s.
Definition edit_ok (s : list byte) (e : edit) : Prop := ed_start e <= ed_end e <= List.length s.
Fixpoint edits_ok (s : list byte) (es : list edit) : Prop :=
  match es with [] => True | e :: es => edit_ok s e /\ edits_ok (edit_text s e) es end.
Definition edits_text (s : list byte) (es : list edit) : list byte := fold_left edit_text es s.
(** ApplyEdit for each of them *)
Definition edits_table (t : ttable) (es : list edit) : ttable :=
  fold_left (fun t e => tt_edit t (ed_start e) (ed_end e) (List.length (ed_text e))) es t.
(** the same, where the positions of captures may be read at any time *)
Inductive after_edits : ttable -> list edit -> ttable -> Prop :=
| ae_none : forall t, after_edits t [] t
| ae_edit : forall t e es t', after_edits (tt_edit t (ed_start e) (ed_end e) (List.length (ed_text e))) es t' -> after_edits t (e :: es) t'
| ae_ask : forall t h es t', after_edits (tt_ask t h) es t' -> after_edits t es t'.
Definition grows (e : edit) : Prop := ed_end e - ed_start e <= List.length (ed_text e).
(** an edit that makes the text at most one byte shorter *)
Definition gentle (e : edit) : Prop := ed_end e - ed_start e <= S (List.length (ed_text e)).

(** ** Patterns whose reads are all recorded *)
(** matching [p] starts with looking at the current byte, through Peek *)
Fixpoint peeks (p : pattern) : bool :=
  match p with
  | PLit (_ :: _) | PClass _ | PEmptyOp _ => true
  | PSeq q _ | PAlt q _ | PStar q | PPlus q | POpt q | PNot q | PAnd q | PCap q _ | PMemo q _ | PNonTerm _ (Some q) => peeks q
  | _ => false
  end.
(** no checkers, errors or searches, and no Any except after a predicate that has looked at the byte:
    Any moves forward without recording how far it has looked *)
Fixpoint recorded (p : pattern) : bool :=
  match p with
  | PEmpty | PLit _ | PClass _ | PEmptyOp _ | PNonTerm _ None => true
  | PSeq l r => match l, r with PNot q, PDot x01 => peeks q && recorded q | _, _ => recorded l && recorded r end
  | PAlt l r => recorded l && recorded r
  | PStar q | PPlus q | POpt q | PNot q | PAnd q | PCap q _ | PMemo q _ | PNonTerm _ (Some q) => recorded q
  | PGrammar defs _ =>
      (fix go (l : list (string * pattern)) : bool := match l with [] => true | (_, q) :: l => recorded q && go l end) defs
  | PDot _ | PSearch _ | PCheck _ _ _ _ | PError _ _ => false
  end.
(** [q] and every definition it uses *)
Definition all_recorded (E : env) (q : pattern) : Prop := recorded q = true /\
  forall E' x b E'', part E q E' (PNonTerm x None) -> lookup E' x = Some (b, E'') -> recorded b = true.
Definition memo_recorded (p : pattern) : Prop := forall id E q, memoized p id E q -> all_recorded E q.
(** a memo id stands for one pattern *)
Definition memo_once (p : pattern) : Prop := forall id E q E' q', memoized p id E q -> memoized p id E' q' -> E = E' /\ q = q'.

(** ** Any number of parses and edits *)
(** no memoized pattern contains a memoized pattern *)
Definition memo_flat (p : pattern) : Prop := forall id E q E' q' id', memoized p id E q -> ~ part E q E' (PMemo q' id').
(** [q] is the empty pattern, perhaps behind names *)
Inductive blank : env -> pattern -> Prop :=
| bl_empty : forall E, blank E PEmpty
| bl_inlined : forall E x q, blank E q -> blank E (PNonTerm x (Some q))
| bl_nonterm : forall E x q E', lookup E x = Some (q, E') -> blank E' q -> blank E (PNonTerm x None)
| bl_seq : forall E l r, blank E l -> blank E r -> blank E (PSeq l r)
| bl_alt : forall E l r, blank E l -> blank E (PAlt l r).
(** [q] is a memoized pattern, perhaps behind names and with the empty pattern before or after it *)
Inductive memo_head : env -> pattern -> Prop :=
| mh_memo : forall E q id, memo_head E (PMemo q id)
| mh_inlined : forall E x q, memo_head E q -> memo_head E (PNonTerm x (Some q))
| mh_nonterm : forall E x q E', lookup E x = Some (q, E') -> memo_head E' q -> memo_head E (PNonTerm x None)
| mh_seq_l : forall E l r, memo_head E l -> blank E r -> memo_head E (PSeq l r)
| mh_seq_r : forall E l r, blank E l -> memo_head E r -> memo_head E (PSeq l r).
(** no memoized pattern is repeated directly, for then the compiler memoizes the repetition as well
    (pattern/compile.go:136-161) *)
Definition memo_unrepeated (p : pattern) : Prop := forall E q, part [] p E (PStar q) \/ part [] p E (PPlus q) -> ~ memo_head E q.

(** a text and a table after parses and edits in any order: a new table, then parses for which the pattern
    has a result, edits that are told to the table, and readings of the positions of captures; after
    the first edit they do not make the text shorter by more than one byte *)
Inductive history {CS} (bufsz : nat) (check : nat -> CS -> list byte -> list byte -> nat -> Z -> Z -> CS * option nat)
    (threshold : Z) (p : pattern) (code : code) : bool -> list byte -> ttable -> Prop :=
| h_new : forall s, history bufsz check threshold p code false s tt_new
| h_parse : forall b s t f cs r w' o st, history bufsz check threshold p code b s t -> check_ok check s ->
    peg s check [] p 0 ([], cs) r w' -> vm_exec bufsz (tree_table threshold) check None f code s t cs = Some (ROk o st) ->
    history bufsz check threshold p code b s (m_tbl st)
| h_edit : forall b s t e, history bufsz check threshold p code b s t -> edit_ok s e -> b = false \/ gentle e ->
    history bufsz check threshold p code true (edit_text s e) (tt_edit t (ed_start e) (ed_end e) (List.length (ed_text e)))
| h_ask : forall b s t h, history bufsz check threshold p code b s t -> history bufsz check threshold p code b s (tt_ask t h).
