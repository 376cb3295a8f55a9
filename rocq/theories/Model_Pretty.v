(** Model of pattern/string.go: Prettify. *)
From Coq Require Import String.
From Verif Require Import Base Model_Charset Model_Pattern Model_String.
Local Open Scope list_scope.
Local Open Scope nat_scope.

(** a Go string constant *)
Definition txt (s : string) : list byte := list_byte_of_string s.

(** a byte in decimal, as fmt prints it with %v (Go standard library) *)
Definition dec (b : byte) : list byte :=
  let n := bN b in
  let d (k : N) := N2b (48 + k) in
  if (n <? 10)%N then [d n]
  else if (n <? 100)%N then [d (n / 10); d (n mod 10)]%N
  else [d (n / 100); d (n / 10 mod 10); d (n mod 10)]%N.

Section Pretty.
(** strconv.Quote of the Go standard library, a parameter *)
Variable quote : list byte -> list byte.
(** optimize.go:9 InlineThreshold *)
Variable threshold : nat.
(** the order in which [range] goes over a map (string.go:48), a parameter *)
Variable order : list (string * pattern) -> list (string * pattern).

(** string.go:45-51: the lines of a grammar; [f] is Prettify *)
Fixpoint pretty_defs (f : pattern -> option (list byte)) (defs : list (string * pattern)) : option (list byte) :=
  match defs with
  | [] => Some []
  | (x, p) :: defs =>
      match f (get p), pretty_defs f defs with
      | Some t, Some ts => Some (txt x ++ txt " <- " ++ t ++ [x0a] ++ ts)
      | _, _ => None
      end
  end.

(** string.go:8-59 Prettify; [None] is out of fuel.  A nil pattern (the Recover of an error) is
    "<invalid>".  The side effect of Inline on the grammar is left out: it is applied to the definitions that
    are printed (its effect on the meaning is C13). *)
Fixpoint pretty (fuel : nat) (p : pattern) : option (list byte) :=
  match fuel with
  | O => None
  | S fuel =>
      let wrap (a : list byte) (p : pattern) (b : list byte) :=
        match pretty fuel (get p) with Some t => Some (a ++ t ++ b) | None => None end in
      let two (a : list byte) (l : pattern) (b : list byte) (r : pattern) (c : list byte) :=
        match pretty fuel (get l), pretty fuel (get r) with
        | Some t, Some u => Some (a ++ t ++ b ++ u ++ c)
        | _, _ => None
        end in
      match get p with
      | PLit s => Some (quote s)
      | PClass c => Some (txt "[" ++ cs_string c ++ txt "]")
      | PDot _ => Some (txt ".")
      | PEmpty => Some [x22; x22]
      | PAlt l r => two (txt "(") l (txt " / ") r (txt ")")
      | PSeq l r => two (txt "(") l (txt " ") r (txt ")")
      | PStar q => wrap [] q (txt "*")
      | PPlus q => wrap [] q (txt "+")
      | POpt q => wrap [] q (txt "?")
      | PNot q => wrap (txt "!") q []
      | PAnd q => wrap (txt "&") q []
      | PCap q _ => wrap (txt "{ ") q (txt " }")
      | PMemo q _ => wrap (txt "{{ ") q (txt " }}")
      | PSearch q => wrap (txt "search(") q (txt ")")
      | PCheck q _ _ _ => wrap (txt "check(") q (txt ")")
      | PError m (Some q) => wrap (txt "err(" ++ txt m ++ txt ", ") q (txt ")")
      | PError m None => Some (txt "err(" ++ txt m ++ txt ", " ++ txt "<invalid>" ++ txt ")")
      | PEmptyOp op => Some (txt "empty(" ++ dec op ++ txt ")")
      | PGrammar defs start =>
          match pretty_defs (pretty fuel) (order (inline_all threshold defs)) with
          | Some ts => Some (txt start ++ [x0a] ++ ts)
          | None => None
          end
      | PNonTerm _ (Some q) => pretty fuel (get q)
      | PNonTerm x None => Some (txt x)
      end
  end.
End Pretty.
