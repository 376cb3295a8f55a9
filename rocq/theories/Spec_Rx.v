(** What a regular expression matches: leftmost-first, as Perl and package regexp define it, on a text
    that is a list of characters. *)
From Coq Require Import ZArith.
From Verif Require Import Base Model_Rxconv.
Local Open Scope nat_scope.

Section Ends.
Variable t : list N.

Definition in_range (r : N) (x : N * N) : bool := (fst x <=? r)%N && (r <=? snd x)%N.
Definition word_rune (o : option N) : bool :=
  match o with
  | Some r => ((65 <=? r) && (r <=? 90) || (97 <=? r) && (r <=? 122) || (48 <=? r) && (r <=? 57) || (r =? 95))%N
  | None => false
  end.
Definition rune_before (n : nat) : option N := match n with O => None | S n => nth_error t n end.
Definition assert_holds (a : assert_op) (n : nat) : bool :=
  let before := rune_before n in
  let after := nth_error t n in
  let nl o := match o with Some r => (r =? 10)%N | None => true end in
  match a with
  | ABeginLine => nl before
  | AEndLine => nl after
  | ABeginText => match before with None => true | _ => false end
  | AEndText => match after with None => true | _ => false end
  | AWord => xorb (word_rune before) (word_rune after)
  | ANoWord => negb (xorb (word_rune before) (word_rune after))
  end.
(** with FoldCase, letters match in both cases (here: the letters of ASCII) *)
Definition to_lower (r : N) : N := if ((65 <=? r) && (r <=? 90))%N then (r + 32)%N else r.
Definition rune_matches (fold : bool) (x y : N) : bool := if fold then (to_lower x =? to_lower y)%N else (x =? y)%N.
Fixpoint lit_ends (fold : bool) (rs : list N) (n : nat) : list nat :=
  match rs with
  | [] => [n]
  | x :: rs => match nth_error t n with Some y => if rune_matches fold x y then lit_ends fold rs (S n) else [] | None => [] end
  end.
Definition one (f : N -> bool) (n : nat) : list nat := match nth_error t n with Some r => if f r then [S n] else [] | None => [] end.
(** repetitions of what ends at [f n]; every repetition matches something *)
Fixpoint star_ends (fuel : nat) (greedy : bool) (f : nat -> list nat) (n : nat) : list nat :=
  match fuel with
  | O => []
  | S fuel =>
      let more := flat_map (star_ends fuel greedy f) (filter (fun j => n <? j) (f n)) in
      if greedy then more ++ [n] else n :: more
  end.
(** the ends of the matches of [e] that start at [n], the preferred ones first *)
Fixpoint ends (e : rx) (n : nat) {struct e} : list nat :=
  match e with
  | RxEmpty => [n]
  | RxLit fold rs => lit_ends fold rs n
  | RxClass ranges => one (fun r => existsb (in_range r) ranges) n
  | RxAny => one (fun _ => true) n
  | RxAnyNotNL => one (fun r => negb (r =? 10)%N) n
  | RxConcat es => (fix go (es : list rx) (n : nat) : list nat := match es with [] => [n] | e :: es => flat_map (go es) (ends e n) end) es n
  | RxAlt es => (fix go (es : list rx) : list nat := match es with [] => [] | e :: es => ends e n ++ go es end) es
  | RxCapture e => ends e n
  | RxStar greedy e => star_ends (S (List.length t - n)) greedy (ends e) n
  | RxPlus greedy e => flat_map (fun j => star_ends (S (List.length t - j)) greedy (ends e) j) (ends e n)
  | RxQuest greedy e => if greedy then ends e n ++ [n] else n :: ends e n
  | RxAssert a => if assert_holds a n then [n] else []
  | RxOther => []
  end.
(** the match starts as far left as possible, and its end is the preferred one *)
Definition leftmost_first (e : rx) (n m : nat) : Prop :=
  n <= List.length t /\ (exists more, ends e n = m :: more) /\ forall n', n' < n -> ends e n' = [].
Definition no_match (e : rx) : Prop := forall n, n <= List.length t -> ends e n = [].
End Ends.

(** the position of character [n] in the bytes of the text *)
Definition boff (t : list N) (n : nat) : nat := List.length (utf8s (firstn n t)).

(** can match without reading a character *)
Fixpoint nullable (e : rx) : bool :=
  match e with
  | RxEmpty | RxStar _ _ | RxQuest _ _ | RxAssert _ => true
  | RxLit _ rs => match rs with [] => true | _ => false end
  | RxClass _ | RxAny | RxAnyNotNL | RxOther => false
  | RxConcat es => (fix go (es : list rx) : bool := match es with [] => true | e :: es => nullable e && go es end) es
  | RxAlt es => (fix go (es : list rx) : bool := match es with [] => false | e :: es => nullable e || go es end) es
  | RxCapture e | RxPlus _ e => nullable e
  end.
(** a property of all parts of an expression *)
Fixpoint all_parts (P : rx -> Prop) (e : rx) : Prop :=
  P e /\
  match e with
  | RxConcat es | RxAlt es => (fix go (es : list rx) : Prop := match es with [] => True | e :: es => all_parts P e /\ go es end) es
  | RxCapture e | RxStar _ e | RxPlus _ e | RxQuest _ e => all_parts P e
  | _ => True
  end.
(** the expressions for which the conversion is right: what is repeated matches at least one character;
    repetition is greedy; letters are not folded; classes and alternatives are not empty *)
Definition fits1 (e : rx) : Prop :=
  match e with
  | RxStar g e | RxPlus g e => g = true /\ nullable e = false
  | RxQuest g _ => g = true
  | RxLit fold _ => fold = false
  | RxClass ranges => ranges <> [] /\ Forall (fun x => (fst x <= snd x)%N) ranges
  | RxAlt es => es <> []
  | RxOther => False
  | _ => True
  end.
Definition fits (e : rx) : Prop := all_parts fits1 e.
(** no repetition inside of a repetition *)
Definition no_reps (e : rx) : Prop := all_parts (fun e => match e with RxStar _ _ | RxPlus _ _ => False | _ => True end) e.
Definition flat_reps (e : rx) : Prop := all_parts (fun e => match e with RxStar _ e | RxPlus _ e => no_reps e | _ => True end) e.

Definition ascii (t : list N) : Prop := Forall (fun r => (r < 128)%N) t.
(** characters of Unicode *)
Definition scalar (r : N) : Prop := surrogate r = false /\ (r <= 0x10FFFF)%N.
(** the parts that also work on texts with characters above 127: no dot, no class that ends between 128 and
    255, no class with an end among the surrogates, no \B *)
Definition narrow1 (e : rx) : Prop :=
  match e with
  | RxLit _ rs => Forall scalar rs
  | RxClass ranges => Forall (fun x => (snd x < 128 \/ (256 <= snd x /\ snd x <= 0x10FFFF /\ (snd x < 0xD800 \/ 0xDFFF < fst x \/ 0xFFFD <= snd x)))%N) ranges
  | RxAny | RxAnyNotNL | RxAssert ANoWord => False
  | _ => True
  end.
Definition narrow (e : rx) : Prop := all_parts narrow1 e.

(** the UTF-8 form of a character, after the table of RFC 3629, section 3 *)
Inductive spells : list byte -> N -> Prop :=
| spells1 : forall a, (bN a < 0x80)%N -> spells [a] (bN a)
| spells2 : forall a b x y, (bN a = 0xC0 + x)%N -> (bN b = 0x80 + y)%N -> (x < 32)%N -> (y < 64)%N ->
    (0x80 <= x * 64 + y)%N -> spells [a; b] (x * 64 + y)
| spells3 : forall a b c x y z, (bN a = 0xE0 + x)%N -> (bN b = 0x80 + y)%N -> (bN c = 0x80 + z)%N -> (x < 16)%N -> (y < 64)%N -> (z < 64)%N ->
    (0x800 <= x * 4096 + y * 64 + z)%N -> spells [a; b; c] (x * 4096 + y * 64 + z)
| spells4 : forall a b c d x y z u, (bN a = 0xF0 + x)%N -> (bN b = 0x80 + y)%N -> (bN c = 0x80 + z)%N -> (bN d = 0x80 + u)%N -> (x < 8)%N -> (y < 64)%N -> (z < 64)%N -> (u < 64)%N ->
    (0x10000 <= x * 262144 + y * 4096 + z * 64 + u)%N -> spells [a; b; c; d] (x * 262144 + y * 4096 + z * 64 + u).
