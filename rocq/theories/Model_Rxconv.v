(** Model of rxconv/rxconv.go: conversion of regular expressions to patterns.

    The parser of regular expressions is regexp/syntax of the Go library; the model starts from the
    tree it returns.  Patterns are trees: in the code the continuation [k] is one object that occurs in
    several places of the result. *)
From Coq Require Import ZArith Ascii String DecimalString.
From Verif Require Import Base Model_Charset Model_Isa Model_Capture Model_VM Model_Pattern.
Local Open Scope nat_scope.

(** regexp/syntax.Regexp: the fields Op, Flags (FoldCase, NonGreedy), Rune and Sub that matter for each
    kind.  A rune is a number. [RxOther] is every kind that verify rejects: OpNoMatch, OpAnyByte,
    OpRepeat. *)
Inductive assert_op := ABeginLine | AEndLine | ABeginText | AEndText | AWord | ANoWord.
Inductive rx :=
| RxEmpty
| RxLit (fold : bool) (rs : list N)
| RxClass (ranges : list (N * N))
| RxAny
| RxAnyNotNL
| RxConcat (es : list rx)
| RxAlt (es : list rx)
| RxCapture (e : rx)
| RxStar (greedy : bool) (e : rx)
| RxPlus (greedy : bool) (e : rx)
| RxQuest (greedy : bool) (e : rx)
| RxAssert (a : assert_op)
| RxOther.

(** regexp/syntax.EmptyBeginLine ... EmptyNoWordBoundary *)
Definition assert_byte (a : assert_op) : byte :=
  match a with ABeginLine => x01 | AEndLine => x02 | ABeginText => x04 | AEndText => x08 | AWord => x10 | ANoWord => x20 end.

(** the conversion string(r) of a rune: its UTF-8 encoding, and that of U+FFFD for an invalid one *)
Local Open Scope N_scope.
Definition surrogate (r : N) : bool := (0xD800 <=? r) && (r <=? 0xDFFF).
Definition utf8 (r : N) : list byte :=
  if r <? 0x80 then [N2b r]
  else if r <? 0x800 then [N2b (0xC0 + r / 64); N2b (0x80 + r mod 64)]
  else if surrogate r || (0x10FFFF <? r) then [xef; xbf; xbd]
  else if r <? 0x10000 then [N2b (0xE0 + r / 4096); N2b (0x80 + r / 64 mod 64); N2b (0x80 + r mod 64)]
  else [N2b (0xF0 + r / 262144); N2b (0x80 + r / 4096 mod 64); N2b (0x80 + r / 64 mod 64); N2b (0x80 + r mod 64)].
Definition utf8s (rs : list N) : list byte := flat_map utf8 rs.
(** the runes from [lo] to [hi] *)
Definition runes (lo hi : N) : list N := map (fun i => lo + N.of_nat i) (seq 0 (N.to_nat (hi + 1 - lo))).
Local Close Scope N_scope.

(** rxconv.go:14-19 uniq: [n] is the value of num after the increment *)
Definition uniq (n : nat) : string := String "a"%char (NilEmpty.string_of_uint (Nat.to_uint n)).

(** rxconv.go:34-48: the alternatives of a character class *)
Definition class_alts (k : pattern) (ranges : list (N * N)) : list pattern :=
  flat_map (fun '(lo, hi) =>
    if ((lo <? 256) && (hi <? 256))%N then [p_concat [PClass (cs_range (N2b lo) (N2b hi)); k]]
    else map (fun r => p_concat [PLit (utf8 r); k]) (runes lo hi)) ranges.

(** rxconv.go:21-26 star and 29-92 pi; [n] is num, the result has its new value *)
Fixpoint pi (e : rx) (n : nat) (k : pattern) {struct e} : pattern * nat :=
  let star (e : rx) (n : nat) (k : pattern) :=
    let nterm := uniq (S n) in
    let (p, n') := pi e (S n) (PNonTerm nterm None) in
    (PGrammar [(nterm, p_or [p; k])] nterm, n') in
  match e with
  | RxEmpty => (k, n)
  | RxLit _ rs => (p_concat [PLit (utf8s rs); k], n)
  | RxClass ranges => (p_or (class_alts k ranges), n)
  | RxAny => (p_concat [PDot x01; k], n)
  | RxAnyNotNL => (p_concat [PClass (cs_compl (cs_new [x0a])); k], n)
  | RxConcat es =>
      (fix go (es : list rx) : pattern * nat :=
         match es with [] => (k, n) | e :: es => let (patt, n) := go es in pi e n patt end) es
  | RxAlt es =>
      let (alts, n) := (fix go (es : list rx) (n : nat) : list pattern * nat :=
         match es with [] => ([], n) | e :: es => let (p, n) := pi e n k in let (ps, n) := go es n in (p :: ps, n) end) es n in
      (p_or alts, n)
  | RxCapture e => pi e n k
  | RxStar _ e => star e n k
  | RxPlus _ e => let (p, n) := star e n k in pi e n p
  | RxQuest _ e => let (p, n) := pi e n k in (p_or [p; k], n)
  | RxAssert a => (p_concat [PEmptyOp (assert_byte a); k], n)
  | RxOther => (PEmpty, n) (* panic; FromRegexp does not get here, because of verify *)
  end.

(** rxconv.go:110-128 verify *)
Fixpoint verify (e : rx) : bool :=
  match e with
  | RxEmpty | RxLit _ _ | RxClass _ | RxAny | RxAnyNotNL | RxAssert _ => true
  | RxConcat es | RxAlt es => (fix go (es : list rx) : bool := match es with [] => true | e :: es => verify e && go es end) es
  | RxCapture e | RxStar _ e | RxPlus _ e | RxQuest _ e => verify e
  | RxOther => false
  end.
(** rxconv.go:94-108 convert, FromRegexp after parsing; [None] is the error "repeat not supported" *)
Definition from_regexp (e : rx) (n : nat) : option (pattern * nat) :=
  if verify e then let (p, n) := pi e n PEmpty in Some (PSearch (PCap p 0), n) else None.
