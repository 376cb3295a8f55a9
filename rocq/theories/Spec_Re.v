(** The language of package re: a reading of the grammar in the comment at the top of grammar.go, rule by
    rule, as functions on texts that give syntax trees, and the patterns these trees stand for. *)
From Coq Require Import ZArith String.
From Verif Require Import Base Model_Charset Model_Pattern.
Local Open Scope nat_scope.

(* ---------- syntax trees ---------- *)
(** characters in literals and classes: themselves, escaped letters, octal numbers *)
Inductive rchar := CPlain (b : byte) | CEsc (b : byte) | COct (ds : list byte).
Inductive rexp :=
| ROr (l : list rexp)
| RCat (l : list rexp)
| RAnd (e : rexp)
| RNot (e : rexp)
| ROpt (e : rexp)
| RStar (e : rexp)
| RPlus (e : rexp)
| RName (x : list byte)
| RLit (cs : list rchar)
| RSet (neg : bool) (rs : list (rchar * option rchar))
| RMemo (e : rexp)      (* {{ e }} *)
| RBrace (e : rexp)     (* { e } *)
| RDot.
Inductive rtop := TExpr (e : rexp) | TGrammar (defs : list (list byte * rexp)).

(* ---------- reading ---------- *)
(** [Out]: out of fuel; [No]: no match; [Yes a rest]: read [a], [rest] is left *)
Inductive pr (A : Type) := Out | No | Yes (a : A) (rest : list byte).
Arguments Out {A}.
Arguments No {A}.
Arguments Yes {A} _ _.
Definition reader (A : Type) : Type := list byte -> pr A.
Definition ret {A} (a : A) : reader A := fun t => Yes a t.
Definition bind {A B} (f : reader A) (g : A -> reader B) : reader B :=
  fun t => match f t with Out => Out | No => No | Yes a t => g a t end.
Definition orelse {A} (f g : reader A) : reader A := fun t => match f t with No => g t | r => r end.
Definition unless {A} (f : reader A) : reader unit := fun t => match f t with Out => Out | No => Yes tt t | Yes _ _ => No end.
Definition maybe {A} (f : reader A) : reader (option A) := fun t => match f t with Out => Out | No => Yes None t | Yes a t => Yes (Some a) t end.
Fixpoint many' {A} (n : nat) (f : reader A) : reader (list A) := fun t =>
  match n with
  | O => Out
  | S n => match f t with Out => Out | No => Yes [] t | Yes a t => match many' n f t with Yes l t => Yes (a :: l) t | r => r end end
  end.
Definition many {A} (f : reader A) : reader (list A) := fun t => many' (S (List.length t)) f t.
Notation "x <- f ;; g" := (bind f (fun x => g)) (at level 61, f at next level, right associativity).
Notation "f ;; g" := (bind f (fun _ => g)) (at level 61, right associativity).
Notation "f // g" := (orelse f g) (at level 59, right associativity).
(** one byte with a property *)
Definition sat (P : byte -> bool) : reader byte := fun t => match t with b :: t => if P b then Yes b t else No | [] => No end.
Definition is (b : byte) : byte -> bool := byte_eqb b.
Definition any : reader byte := sat (fun _ => true).
Fixpoint str (l : list byte) : reader unit := match l with [] => ret tt | b :: l => sat (is b) ;; str l end.
Definition within (lo hi : N) (b : byte) : bool := ((lo <=? bN b) && (bN b <=? hi))%N.

(** EndOfLine_: CR LF, or LF, or CR *)
Definition end_of_line : reader unit := str [x0d; x0a] // str [x0a] // str [x0d].
(** Space_: blank, tab, or EndOfLine_ *)
Definition space : reader unit := (sat (fun b => is x20 b || is x09 b) ;; ret tt) // end_of_line.
(** Comment_: # (!EndOfLine_ .)* EndOfLine_ *)
Definition comment : reader unit := str [x23] ;; many (unless end_of_line ;; any) ;; end_of_line.
(** Spacing_ <- (Space_ / Comment_)* *)
Definition spacing : reader unit := many (space // comment) ;; ret tt.
Definition token (l : list byte) : reader unit := str l ;; spacing.
Definition end_of_file : reader unit := unless any.

(** Identifier <- IdentStart IdentCont* Spacing_, with [a-zA-Z_] and then also [0-9] *)
Definition letter (b : byte) : bool := within 97 122 b || within 65 90 b || is x5f b.
Definition digit (b : byte) : bool := within 48 57 b.
Definition identifier : reader (list byte) :=
  b <- sat letter ;; l <- many (sat letter // sat digit) ;; spacing ;; ret (b :: l).
(** Char: a backslash and one of n r t, the two quotes, the two brackets, backslash, minus; or a backslash and
    [0-2][0-7][0-7]; or a backslash and [0-7][0-7]?; or anything but a backslash *)
Definition escaped (b : byte) : bool := existsb (byte_eqb b) [x6e; x72; x74; x27; x22; x5b; x5d; x5c; x2d].
Definition octal_digit (hi : N) : reader byte := sat (within 48 hi).
Definition char : reader rchar :=
  (sat (is x5c) ;; b <- sat escaped ;; ret (CEsc b)) //
  (sat (is x5c) ;; a <- octal_digit 50 ;; b <- octal_digit 55 ;; c <- octal_digit 55 ;; ret (COct [a; b; c])) //
  (sat (is x5c) ;; a <- octal_digit 55 ;; b <- maybe (octal_digit 55) ;; ret (COct (a :: match b with Some b => [b] | None => [] end))) //
  (unless (sat (is x5c)) ;; b <- any ;; ret (CPlain b)).
(** Literal: a quote, characters other than this quote, the quote, Spacing_ *)
Definition quoted (q : byte) : reader (list rchar) :=
  str [q] ;; l <- many (unless (str [q]) ;; char) ;; str [q] ;; spacing ;; ret l.
Definition literal : reader (list rchar) := quoted x27 // quoted x22.
(** Range: Char - Char, or Char *)
Definition range : reader (rchar * option rchar) :=
  (a <- char ;; str [x2d] ;; b <- char ;; ret (a, Some b)) // (a <- char ;; ret (a, None)).
(** Class: bracket, CARAT?, ranges that do not start with a closing bracket, closing bracket, Spacing_ *)
Definition class : reader rexp :=
  str [x5b] ;; neg <- maybe (token [x5e]) ;; l <- many (unless (str [x5d]) ;; range) ;; str [x5d] ;; spacing ;;
  ret (RSet (match neg with Some _ => true | None => false end) l).

Section Expr.
Variable ex : reader rexp.
(** Primary *)
Definition primary : reader rexp :=
  (x <- identifier ;; unless (token [x3c; x2d]) ;; ret (RName x)) //
  (token [x28] ;; e <- ex ;; token [x29] ;; ret e) //
  (token [x7b; x7b] ;; e <- ex ;; token [x7d; x7d] ;; ret (RMemo e)) //
  (token [x7b] ;; e <- ex ;; token [x7d] ;; ret (RBrace e)) //
  (l <- literal ;; ret (RLit l)) //
  class //
  (token [x2e] ;; ret RDot).
(** Suffix <- Primary (QUESTION / STAR / PLUS)? *)
Definition suffix : reader rexp :=
  e <- primary ;;
  o <- maybe ((token [x3f] ;; ret ROpt) // (token [x2a] ;; ret RStar) // (token [x2b] ;; ret RPlus)) ;;
  ret (match o with Some f => f e | None => e end).
(** Prefix <- (AND / NOT)? Suffix *)
Definition prefix : reader rexp :=
  o <- maybe ((token [x26] ;; ret RAnd) // (token [x21] ;; ret RNot)) ;;
  e <- suffix ;;
  ret (match o with Some f => f e | None => e end).
(** Sequence <- Prefix* *)
Definition sequence : reader rexp := l <- many prefix ;; ret (RCat l).
(** Expression <- Sequence (SLASH Sequence)* *)
Definition expression : reader rexp := e <- sequence ;; l <- many (token [x2f] ;; sequence) ;; ret (ROr (e :: l)).
End Expr.
Fixpoint expr (n : nat) : reader rexp := match n with O => fun _ => Out | S n => expression (expr n) end.
(** Definition <- Identifier LEFTARROW Expression *)
Definition definition (n : nat) : reader (list byte * rexp) := x <- identifier ;; token [x3c; x2d] ;; e <- expr n ;; ret (x, e).
(** Grammar <- Definition+ *)
Definition grammar (n : nat) : reader (list (list byte * rexp)) := d <- definition n ;; l <- many (definition n) ;; ret (d :: l).
(** Pattern <- Spacing_ (Grammar / Expression) EndOfFile_ *)
Definition top (n : nat) : reader rtop :=
  spacing ;; p <- (d <- grammar n ;; ret (TGrammar d)) // (e <- expr n ;; ret (TExpr e)) ;; end_of_file ;; ret p.
(** the syntax tree of a text *)
Definition read (t : list byte) : pr rtop := top (S (List.length t)) t.

(* ---------- meaning ---------- *)
Definition char_value (c : rchar) : byte :=
  match c with
  | CPlain b => b
  | CEsc b => match b with x6e => x0a | x72 => x0d | x74 => x09 | _ => b end
  | COct ds => N2b (fold_left (fun v d => 8 * v + (bN d - 48))%N ds 0%N)
  end.
Definition range_set (r : rchar * option rchar) : cset :=
  match r with (a, Some b) => cs_range (char_value a) (char_value b) | (a, None) => cs_new [char_value a] end.
Definition name (x : list byte) : string := string_of_list_byte x.
(** [m] numbers the memoized patterns *)
Fixpoint denote (e : rexp) (m : Z) {struct e} : pattern * Z :=
  let all := (fix all (l : list rexp) (m : Z) : list pattern * Z :=
    match l with [] => ([], m) | e :: l => let (p, m) := denote e m in let (ps, m) := all l m in (p :: ps, m) end) in
  let on (f : pattern -> pattern) (e : rexp) := let (p, m) := denote e m in (f p, m) in
  match e with
  | ROr l => let (ps, m) := all l m in (p_or ps, m)
  | RCat l => let (ps, m) := all l m in (p_concat ps, m)
  | RAnd e => on PAnd e
  | RNot e => on PNot e
  | ROpt e => on POpt e
  | RStar e => on PStar e
  | RPlus e => on PPlus e
  | RName x => (PNonTerm (name x) None, m)
  | RLit cs => (PLit (map char_value cs), m)
  | RSet neg rs => let set := fold_left (fun x r => cs_add x (range_set r)) rs (cs_new []) in (PClass (if neg then cs_compl set else set), m)
  | RMemo e => let (p, m) := denote e m in (PMemo p m, (m + 1)%Z)
  | RBrace e => on (fun p => p) e
  | RDot => (PDot x01, m)
  end.
(** a grammar: the last definition of a name counts, the first name is the start *)
Fixpoint denote_defs (defs : list (list byte * rexp)) (m : Z) : list (string * pattern) * Z :=
  match defs with
  | [] => ([], m)
  | (x, e) :: defs => let (p, m) := denote e m in let (l, m) := denote_defs defs m in ((name x, p) :: l, m)
  end.
Definition last_def (l : list (string * pattern)) (x : string) : option pattern := assoc (rev l) x.

(* ---------- what the code gets wrong ---------- *)
(** octal numbers above 177, empty classes and single braces *)
Definition char_ok (c : rchar) : Prop := match c with COct ds => (fold_left (fun v d => 8 * v + (bN d - 48)) ds 0 < 128)%N | _ => True end.
Definition range_ok (r : rchar * option rchar) : Prop := char_ok (fst r) /\ match snd r with Some b => char_ok b | None => True end.
Fixpoint plain (e : rexp) : Prop :=
  match e with
  | ROr l | RCat l => (fix go (l : list rexp) : Prop := match l with [] => True | e :: l => plain e /\ go l end) l
  | RAnd e | RNot e | ROpt e | RStar e | RPlus e | RMemo e => plain e
  | RLit cs => Forall char_ok cs
  | RSet neg rs => Forall range_ok rs /\ (neg = true \/ rs <> [])
  | RBrace _ => False
  | RName _ | RDot => True
  end.
Definition plain_top (p : rtop) : Prop := match p with TExpr e => plain e | TGrammar d => Forall (fun d => plain (snd d)) d end.

(* ---------- writing ---------- *)
(** Texts for syntax trees, with parentheses around everything.  This does not depend on the readers above. *)
Definition show_char (c : rchar) : list byte :=
  match c with CPlain b => [b] | CEsc b => [x5c; b] | COct ds => x5c :: ds end.
Definition show_range (r : rchar * option rchar) : list byte :=
  match r with (a, None) => show_char a | (a, Some b) => show_char a ++ [x2d] ++ show_char b end.
Fixpoint show (e : rexp) : list byte :=
  match e with
  | ROr l => [x28] ++ (fix go (l : list rexp) : list byte := match l with [] => [] | [e] => show e | e :: l => show e ++ [x2f] ++ go l end) l ++ [x29]
  | RCat l => [x28] ++ (fix go (l : list rexp) : list byte := match l with [] => [] | e :: l => show e ++ go l end) l ++ [x29]
  | RAnd e => [x28; x26] ++ show e ++ [x29]
  | RNot e => [x28; x21] ++ show e ++ [x29]
  | ROpt e => [x28] ++ show e ++ [x3f; x29]
  | RStar e => [x28] ++ show e ++ [x2a; x29]
  | RPlus e => [x28] ++ show e ++ [x2b; x29]
  | RName x => x ++ [x20]
  | RLit cs => [x27] ++ flat_map show_char cs ++ [x27]
  | RSet neg rs => [x5b] ++ (if neg then [x5e] else []) ++ flat_map show_range rs ++ [x5d]
  | RMemo e => [x7b; x7b] ++ show e ++ [x7d; x7d]
  | RBrace e => [x7b] ++ show e ++ [x7d]
  | RDot => [x2e]
  end.
Fixpoint show_defs (defs : list (list byte * rexp)) : list byte :=
  match defs with [] => [] | (x, e) :: defs => x ++ [x20; x3c; x2d] ++ show e ++ show_defs defs end.
(** what can be written: names are identifiers; an octal number has at most three digits, is at most 177, and
    no digit that could belong to it follows; other characters are none of [bad] *)
Definition oct (b : byte) : bool := within 48 55 b.
Definition legal_name (x : list byte) : bool := match x with b :: l => letter b && forallb (fun b => letter b || digit b) l | [] => false end.
Definition legal_char (bad : list byte) (c : rchar) : bool :=
  match c with
  | CPlain b => negb (existsb (byte_eqb b) (x5c :: bad))
  | CEsc b => escaped b
  | COct [a; b; c] => within 48 49 a && oct b && oct c
  | COct [a; b] => oct a && oct b
  | COct [a] => oct a
  | COct _ => false
  end.
Definition no_digit (rest : list byte) : bool := match rest with b :: _ => negb (oct b) | [] => true end.
Definition gap (c : rchar) (rest : list byte) : bool :=
  match c with
  | COct [_] => no_digit rest
  | COct [a; _] => if within 48 50 a then no_digit rest else true
  | _ => true
  end.
Fixpoint legal_lit (cs : list rchar) : bool :=
  match cs with [] => true | c :: cs => legal_char [x27] c && gap c (flat_map show_char cs ++ [x27]) && legal_lit cs end.
Definition bad_in_class : list byte := [x5d; x2d; x5e; x20; x09; x0a; x0d; x23].
Fixpoint legal_ranges (rs : list (rchar * option rchar)) : bool :=
  match rs with
  | [] => true
  | (a, o) :: rs =>
      legal_char bad_in_class a &&
      match o with
      | None => gap a (flat_map show_range rs ++ [x5d])
      | Some b => legal_char bad_in_class b && gap b (flat_map show_range rs ++ [x5d])
      end && legal_ranges rs
  end.
Fixpoint legal (e : rexp) : Prop :=
  match e with
  | ROr l | RCat l => (fix go (l : list rexp) : Prop := match l with [] => True | e :: l => legal e /\ go l end) l
  | RAnd e | RNot e | ROpt e | RStar e | RPlus e | RMemo e => legal e
  | RName x => legal_name x = true
  | RLit cs => legal_lit cs = true
  | RSet neg rs => legal_ranges rs = true /\ (neg = true \/ rs <> [])
  | RBrace _ => False
  | RDot => True
  end.
