(** Model of charset/charset.go:134-155, Set.String. *)
From Verif Require Import Base Model_Charset.

(** a hexadecimal digit, [const lowerhex = "0123456789abcdef"] of strconv (Go standard library) *)
Definition hex (n : N) : byte := if (n <? 10)%N then N2b (48 + n) else N2b (87 + n).

(** strconv.QuoteRuneToASCII (Go standard library, trusted: quote.go appendEscapedRune) for the runes
    0..255, which are the only ones at charset.go:139-147.  Runes below 32 and 127 are written with two
    hexadecimal digits, runes from 128 on with four. *)
Definition quote_rune (b : byte) : list byte :=
  let n := bN b in
  x27 :: (if (n =? 39)%N || (n =? 92)%N then [x5c; b]
          else if (32 <=? n)%N && (n <? 127)%N then [b]
          else if (n =? 7)%N then [x5c; x61]
          else if (n =? 8)%N then [x5c; x62]
          else if (n =? 12)%N then [x5c; x66]
          else if (n =? 10)%N then [x5c; x6e]
          else if (n =? 13)%N then [x5c; x72]
          else if (n =? 9)%N then [x5c; x74]
          else if (n =? 11)%N then [x5c; x76]
          else if (n <? 32)%N || (n =? 127)%N then [x5c; x78; hex (n / 16); hex (n mod 16)]
          else [x5c; x75; x30; x30; hex (n / 16); hex (n mod 16)]) ++ [x27].

(** one iteration of the loop at charset.go:137-149: the text so far and inRange.  [byte(b)] and
    [byte(b + 1)] are conversions of an int to a byte. *)
Definition string_step (c : cset) (st : list byte * bool) (b : nat) : list byte * bool :=
  let (s, inr) := st in
  let byte_of (n : nat) := N2b (N.of_nat n) in
  if cs_has c (byte_of b) && (b =? 255) then (s ++ quote_rune (byte_of b), inr)
  else if cs_has c (byte_of b) && negb inr then
    ((if cs_has c (byte_of (b + 1)) then s ++ quote_rune (byte_of b) ++ [x2e; x2e] else s), true)
  else if negb (cs_has c (byte_of b)) && inr then (s ++ quote_rune (byte_of (b - 1)) ++ [x2c], false)
  else (s, inr).

(** charset.go:150-152: a comma at the end is taken away *)
Definition drop_comma (s : list byte) : list byte :=
  match rev s with
  | x2c :: l => rev l
  | _ => s
  end.

(** charset.go:134-155 String *)
Definition cs_string (c : cset) : list byte :=
  x7b :: drop_comma (fst (fold_left (string_step c) (seq 0 256) ([], false))) ++ [x7d].
