(** A check that the program of a grammar fits into the bytecode for every inline threshold.  The threshold is only
    compared with the sizes of definitions, so there are finitely many cases. *)
From Coq Require Import ZArith String.
From Verif Require Import Base Model_Pattern Model_Re Spec_Re Spec_Grammars Spec_GrammarSize.
Local Open Scope nat_scope.

(** no grammar and no search inside: compiling does not look at the threshold *)
Fixpoint plain_pattern (p : pattern) : bool :=
  match p with
  | PAlt l r | PSeq l r => plain_pattern l && plain_pattern r
  | PStar p | PPlus p | POpt p | PNot p | PAnd p | PCap p _ | PMemo p _ | PCheck p _ _ _ => plain_pattern p
  | PGrammar _ _ | PSearch _ => false
  | PNonTerm _ (Some q) | PError _ (Some q) => plain_pattern q
  | _ => true
  end.

Definition min_opt (a b : option nat) : option nat :=
  match a, b with Some a, Some b => Some (Nat.min a b) | Some a, None => Some a | None, b => b end.
(** the smallest size, not below [thr], of a definition that could be inlined *)
Definition kept_size (thr : nat) (defs : list (string * pattern)) : option nat :=
  fold_right (fun kq m => if is_leaf (snd kq) && (thr <=? psize (snd kq)) then min_opt (Some (psize (snd kq))) m else m) None defs.
(** what is inlined for each name, see [inline_choice] *)
Definition choices (thr : nat) (defs : list (string * pattern)) : list (string * option pattern) :=
  map (fun kq => (fst kq, if (psize (snd kq) <? thr) && is_leaf (snd kq) then Some (snd kq) else None)) defs.
Definition chosen (tbl : list (string * option pattern)) (x : string) : option pattern :=
  match assoc tbl x with Some o => o | None => None end.
(** [inline_n], and the smallest [kept_size] of its passes: a threshold between [thr] and that size gives the same *)
Fixpoint border (thr n : nat) (defs : list (string * pattern)) : list (string * pattern) * option nat :=
  match n with
  | O => (defs, None)
  | S n =>
      let tbl := choices thr defs in
      if existsb (fun kq => existsb (fun x => match chosen tbl x with Some _ => true | None => false end) (open_nts (snd kq))) defs
      then let (d, m) := border thr n (map (fun kq => (fst kq, inline_in (chosen tbl) (snd kq))) defs) in (d, min_opt (kept_size thr defs) m)
      else (defs, kept_size thr defs)
  end.

(** [grammar_fits], for definitions in which everything was inlined *)
Definition inlined_fits (thr n : nat) (start : string) (defs : list (string * pattern)) (m : Z) : bool :=
  match used_names defs with
  | [] => false
  | used => match pieces thr n start used defs (snd (new_label (CState 0 m))) with Some ps => small_pieces ps | None => false end
  end.
(** [grammar_fits] for every threshold from [thr] on, in at most [steps] cases *)
Fixpoint fits_from (steps thr n : nat) (p : pattern) (m : Z) : bool :=
  match steps with
  | O => false
  | S steps =>
      match p with
      | PGrammar defs start =>
          let (d, k) := border thr (S (count_open defs)) defs in
          inlined_fits thr n start d m && forallb (fun kq => plain_pattern (snd kq)) d &&
          match k with None => true | Some k => fits_from steps (S k) n p m end
      | _ => false
      end
  end.
Definition text_fits_any (steps n : nat) (s : list byte) : bool :=
  match read s with
  | Yes (TGrammar l) _ => forallb (fun capg => fits_from steps 0 n (grammar_of capg l) (snd (denote_defs l 0))) [false; true]
  | _ => false
  end.
