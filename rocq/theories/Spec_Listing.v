(** Programs that can be told apart by their listings. *)
From Coq Require Import String.
From Verif Require Import Base Model_Charset Model_Isa Model_Pattern.
Local Open Scope nat_scope.

(** different values have different texts, of one line *)
Definition lines {A} (f : A -> list byte) : Prop := (forall a b, f a = f b -> a = b) /\ forall a, ~ In x0a (f a).

(** everything about the instruction is in its listing *)
Definition listed (i : insn) : Prop :=
  match i with
  | ISet s | ISpan s | ITestSet s _ | ITestSetNoChoice s _ => cs_wf s
  | IEmpty op => In op [x01; x02; x04; x08; x10; x20]
  | ICheckBegin _ _ | ICheckEnd _ | IOpenCall _ => False
  | _ => True
  end.

(** a program without the instructions that do nothing *)
Definition without_nops (p : program) : program := filter (fun i => match i with INop => false | _ => true end) p.

(** patterns without checkers, whose assertions are those of regular expressions *)
Inductive shown : pattern -> Prop :=
| sh_alt l r : shown l -> shown r -> shown (PAlt l r)
| sh_seq l r : shown l -> shown r -> shown (PSeq l r)
| sh_star p : shown p -> shown (PStar p)
| sh_plus p : shown p -> shown (PPlus p)
| sh_opt p : shown p -> shown (POpt p)
| sh_not p : shown p -> shown (PNot p)
| sh_and p : shown p -> shown (PAnd p)
| sh_cap p id : shown p -> shown (PCap p id)
| sh_memo p id : shown p -> shown (PMemo p id)
| sh_search p : shown p -> shown (PSearch p)
| sh_grammar defs start : Forall (fun d => shown (snd d)) defs -> shown (PGrammar defs start)
| sh_class s : cs_wf s -> shown (PClass s)
| sh_lit l : shown (PLit l)
| sh_name x : shown (PNonTerm x None)
| sh_inlined x p : shown p -> shown (PNonTerm x (Some p))
| sh_dot n : shown (PDot n)
| sh_error m : shown (PError m None)
| sh_recover m p : shown p -> shown (PError m (Some p))
| sh_assert op : In op [x01; x02; x04; x08; x10; x20] -> shown (PEmptyOp op)
| sh_empty : shown PEmpty.
