(** A fast check that the program of a grammar fits into the bytecode.  It looks at the code of the definitions one by
    one, before calls are resolved and before Optimize, whose models look up instructions by their number in a list. *)
From Coq Require Import ZArith String.
From Verif Require Import Base Model_Charset Model_Isa Model_Code Model_Pattern Model_Re Spec_Re Spec_Encode Spec_Grammars.
Local Open Scope nat_scope.

(** the code of the definitions that are compiled, in order; [st]: the state of the compiler *)
Fixpoint pieces (thr n : nat) (start : string) (used : list string) (ds : list (string * pattern)) (st : cstate) : option (list program) :=
  match ds with
  | [] => Some []
  | (k, v) :: ds =>
      if negb (String.eqb k start) && negb (str_mem k used) then pieces thr n start used ds st
      else
        let (lbl, st) := new_label st in
        match compile_f thr n v st with
        | COk fn st => match pieces thr n start used ds st with Some l => Some (fn :: l) | None => None end
        | _ => None
        end
  end.
Definition short_ids (i : insn) : bool := forallb (fun id => (-32768 <=? id) && (id <? 32768))%Z (ids_of i).
Definition plain_insn (i : insn) : bool := short_ids i && match messages_of i, checkers_of i with [], [] => true | _, _ => false end.
(** an instruction has at most 6 bytes *)
Definition small_pieces (ps : list program) : bool :=
  forallb (forallb plain_insn) ps &&
  (6 * (3 + fold_right (fun c n => N.of_nat (List.length c) + 2 + n) 0 ps) <? 16777216)%N &&
  (List.length (fold_right cset_add [] (flat_map (flat_map sets_of) ps)) <=? 256).
Definition grammar_fits (thr n : nat) (p : pattern) (m : Z) : bool :=
  match p with
  | PGrammar defs0 start =>
      let defs := inline_all thr defs0 in
      match used_names defs with
      | [] => false
      | used => match pieces thr n start used defs (snd (new_label (CState 0 m))) with Some ps => small_pieces ps | None => false end
      end
  | _ => false
  end.
Definition text_fits (thr n : nat) (s : list byte) : bool :=
  match read s with
  | Yes (TGrammar l) _ => forallb (fun capg => grammar_fits thr n (grammar_of capg l) (snd (denote_defs l 0))) [false; true]
  | _ => false
  end.
