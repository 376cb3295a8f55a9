(** Model of isa/checker.go: the checkers that come with the library. *)
From Verif Require Import Base.
Local Open Scope nat_scope.

Definition bytes_eqb (a b : list byte) : bool := if list_eq_dec Byte.byte_eq_dec a b then true else false.

(** checker.go:15-30 MapChecker (given by the strings passed to NewMapChecker) and checker.go:40-48
    BackReference *)
Inductive checker := MapChecker (strs : list (list byte)) | BackReference.

(** the field Symbols of each BackReference object; a missing key reads as the empty string *)
Definition symbols := nat -> Z -> list byte.
Definition set_symbol (st : symbols) (k : nat) (id : Z) (b : list byte) : symbols :=
  fun k' id' => if (k' =? k) && (id' =? id)%Z then b else st k' id'.

(** checker.go:24-29 MapChecker.Check *)
Definition map_check (strs : list (list byte)) (b : list byte) : option nat :=
  if existsb (bytes_eqb b) strs then Some 0 else None.

(** checker.go:50-67 BackReference.Check; RefKind is a uint8.  [s] is the whole input and [pos] the
    value of src.Pos(). *)
Definition ref_check (st : symbols) (k : nat) (b s : list byte) (pos : nat) (id flag : Z) : symbols * option nat :=
  match (flag mod 256)%Z with
  | 0%Z => (set_symbol st k id b, Some 0)
  | 1%Z =>
      let back := st k id in
      let buf := firstn (List.length back) (skipn pos s) in
      (st, if (List.length buf =? List.length back) && bytes_eqb buf back then Some (List.length buf) else None)
  | _ => (st, Some 0)
  end.

(** a program's checkers, indexed by number *)
Definition std_check (cks : nat -> checker) (k : nat) (st : symbols) (b s : list byte) (pos : nat) (id flag : Z) : symbols * option nat :=
  match cks k with
  | MapChecker strs => (st, map_check strs b)
  | BackReference => ref_check st k b s pos id flag
  end.
