(** What the pieces are that the grammar of bench/java.go picks out. *)
From Coq Require Import ZArith String.
From Verif Require Import Base Model_Java Spec_Peg.
Local Open Scope nat_scope.

(** the bytes of the text that a capture stands for *)
Definition part (s : list byte) (i n : nat) : list byte := firstn n (skipn i s).
Local Open Scope N_scope.
Definition letter (b : byte) : Prop := 65 <= bN b <= 90 \/ 97 <= bN b <= 122 \/ b = x5f.
Definition digit (b : byte) : Prop := 48 <= bN b <= 57.
Local Close Scope N_scope.
(** the escapes of java.go:92-95 *)
Definition escapes : list byte := [x27; x22; x74; x6e; x62; x66; x72; x5c].
(** after an opening quote, the first quote that no backslash escapes is the last byte *)
Fixpoint closes (t : list byte) : Prop :=
  match t with
  | [] => False
  | c :: r =>
      if byte_eqb c x22 then r = []
      else match r with
           | e :: r1 => if byte_eqb c x5c && existsb (byte_eqb e) escapes then closes r1 else closes r
           | [] => False
           end
  end.
(** a comment up to the end of its line, a name before a parenthesis, one of three words, a string up to its quote, or a
    newline, with the identifier for it (java.go:100-106) *)
Definition java_piece (s : list byte) (c : ctree) : Prop :=
  match c with
  | CNode id i n kids =>
      kids = [] /\ i + n <= List.length s /\
      ((id = 0%Z /\ exists b, part s i n = [x2f; x2f] ++ b ++ [x0a] /\ ~ In x0a b) \/
       (id = 1%Z /\ (exists c r, part s i n = c :: r /\ letter c /\ Forall (fun b => letter b \/ digit b) r) /\ nth_error s (i + n) = Some x28) \/
       (id = 2%Z /\ In (part s i n) j_words) \/
       (id = 3%Z /\ exists t, part s i n = x22 :: t /\ closes t) \/
       (id = 4%Z /\ part s i n = [x0a]))
  end.
