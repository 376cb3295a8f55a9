(** Patterns that can be told apart by their printed form. *)
From Coq Require Import String.
From Verif Require Import Base Model_Charset Model_Pattern Spec_Peg.
Local Open Scope list_scope.
Local Open Scope nat_scope.

(** letters, digits and the underscore *)
Definition ident (b : byte) : bool :=
  let n := bN b in
  ((48 <=? n) && (n <=? 57) || (65 <=? n) && (n <=? 90) || (97 <=? n) && (n <=? 122) || (n =? 95))%N.

(** What strconv.Quote promises: quoted texts begin with a quotation mark, can be taken off the front of a
    text, and the empty text is two quotation marks. *)
Definition quotes (quote : list byte -> list byte) : Prop :=
  quote [] = [x22; x22] /\ (forall s, exists t, quote s = x22 :: t) /\
  exists unquote : list byte -> option (list byte * list byte), forall s t, unquote (quote s ++ t) = Some (s, t).

(** [legible cap b p]: only what is printed matters for the meaning of p.  Checkers, grammars, Any(n) with n
    other than 1 and errors whose message has a comma are not legible; captures are if [cap] is true, their
    identifiers are not printed.  [b] tells whether the printed form begins with ! or &, since such a pattern
    must not be repeated or optional.  The pattern is looked at as Prettify does, after Get. *)
Inductive legible (cap : bool) : bool -> pattern -> Prop :=
| lg_lit p s : get p = PLit s -> legible cap false p
| lg_class p c : get p = PClass c -> legible cap false p
| lg_dot p : get p = PDot x01 -> legible cap false p
| lg_empty p : get p = PEmpty -> legible cap false p
| lg_name p x : get p = PNonTerm x None -> x <> EmptyString -> forallb ident (list_byte_of_string x) = true -> legible cap false p
| lg_inlined p x q b : get p = PNonTerm x (Some q) -> legible cap b (get q) -> legible cap b p
| lg_alt p l r b b' : get p = PAlt l r -> legible cap b (get l) -> legible cap b' (get r) -> legible cap false p
| lg_seq p l r b b' : get p = PSeq l r -> legible cap b (get l) -> legible cap b' (get r) -> legible cap false p
| lg_star p q : get p = PStar q -> legible cap false (get q) -> legible cap false p
| lg_plus p q : get p = PPlus q -> legible cap false (get q) -> legible cap false p
| lg_opt p q : get p = POpt q -> legible cap false (get q) -> legible cap false p
| lg_not p q b : get p = PNot q -> legible cap b (get q) -> legible cap true p
| lg_and p q b : get p = PAnd q -> legible cap b (get q) -> legible cap true p
| lg_memo p q id b : get p = PMemo q id -> legible cap b (get q) -> legible cap false p
| lg_search p q b : get p = PSearch q -> legible cap b (get q) -> legible cap false p
| lg_op p op : get p = PEmptyOp op -> legible cap false p
| lg_err p m q b : get p = PError m (Some q) -> ~ In x2c (list_byte_of_string m) -> legible cap b (get q) -> legible cap false p
| lg_abort p m : get p = PError m None -> ~ In x2c (list_byte_of_string m) -> legible cap false p
| lg_cap p q id b : get p = PCap q id -> cap = true -> legible cap b (get q) -> legible cap false p.

(** a result without the identifiers of the captures *)
Fixpoint anon_tree (t : ctree) : ctree := match t with CNode _ i n ts => CNode 0 i n (map anon_tree ts) end.
Definition anonymous (r : pres) : pres := match r with RSucc j ts => RSucc j (map anon_tree ts) | r => r end.

(** a grammar that can be read: a map of different names (identifiers) to patterns that are legible in the
    form in which they are printed, after inlining *)
Definition name_ok (x : string) : Prop := x <> EmptyString /\ forallb ident (list_byte_of_string x) = true.
Definition readable_grammar (cap : bool) (thr : nat) (defs : frame) (start : string) : Prop :=
  forallb ident (list_byte_of_string start) = true /\ NoDup (map fst defs) /\
  Forall (fun d => name_ok (fst d) /\ exists b, legible cap b (get (snd d))) (inline_all thr defs).
