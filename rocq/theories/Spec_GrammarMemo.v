(** A fast check for the memoized patterns of a grammar: every memo id is used once, and what a memoized pattern looks at is
    recorded (see [recorded] in Spec_Memo). *)
From Coq Require Import ZArith String.
From Verif Require Import Base Model_Charset Model_Isa Model_Code Model_VM Model_Pattern Model_Re Spec_Scope Spec_Run Spec_Re Spec_Memo Spec_Grammars.
Local Open Scope nat_scope.

(** the memoized patterns inside a pattern without grammars *)
Fixpoint memos (p : pattern) : list (Z * pattern) :=
  match p with
  | PAlt l r | PSeq l r => memos l ++ memos r
  | PStar p | PPlus p | POpt p | PNot p | PAnd p | PCap p _ => memos p
  | PMemo p id => (id, p) :: memos p
  | _ => []
  end.
(** the names that can be reached from the names in [R] *)
Fixpoint reach (n : nat) (defs : list (string * pattern)) (R : list string) : list string :=
  match n with
  | O => R
  | S n => let new := filter (fun x => negb (str_mem x R)) (nodup string_dec (flat_map (fun d => if str_mem (fst d) R then free_nts (snd d) else []) defs)) in
           match new with [] => R | _ => reach n defs (new ++ R) end
  end.
Fixpoint distinct_ids (l : list Z) : bool := match l with [] => true | x :: l => negb (existsb (Z.eqb x) l) && distinct_ids l end.
Definition memo_check (m : Z) (p : pattern) : bool :=
  match p with
  | PGrammar defs _ =>
      let ms := flat_map (fun d => memos (snd d)) defs in
      let R := reach (S (List.length defs)) defs (nodup string_dec (flat_map (fun m => free_nts (snd m)) ms)) in
      distinct_ids (map fst ms) && forallb (fun x => (x <=? m)%Z) (map fst ms) &&
      forallb (fun m => recorded (snd m) && forallb (fun x => str_mem x R) (free_nts (snd m))) ms &&
      forallb (fun d => negb (str_mem (fst d) R) || (recorded (snd d) && forallb (fun x => str_mem x R) (free_nts (snd d)))) defs
  | _ => false
  end.
Definition memo_text (s : list byte) : bool :=
  match read s with
  | Yes (TGrammar l) _ => forallb (fun capg => memo_check (snd (denote_defs l 0)) (grammar_of capg l)) [false; true]
  | _ => false
  end.
