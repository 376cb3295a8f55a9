(** Scoping conditions on patterns used in the statements about compilation. *)
From Verif Require Import Base Model_Charset Model_Isa Model_Capture Model_VM Model_Pattern.
Local Open Scope nat_scope.

Definition names (defs : list (string * pattern)) : list string := map fst defs.

(** names of non-terminals of [p] not bound by a grammar inside [p] *)
Fixpoint free_nts (p : pattern) : list string :=
  match p with
  | PAlt l r | PSeq l r => free_nts l ++ free_nts r
  | PStar p | PPlus p | POpt p | PNot p | PAnd p | PCap p _ | PMemo p _ | PCheck p _ _ _ | PSearch p => free_nts p
  | PGrammar defs _ =>
      filter (fun x => negb (str_mem x (names defs)))
        ((fix go (l : list (string * pattern)) : list string :=
            match l with [] => [] | (_, q) :: l => free_nts q ++ go l end) defs)
  | PNonTerm x None => [x]
  | PNonTerm _ (Some q) => free_nts q
  | PError _ (Some q) => free_nts q
  | _ => []
  end.

(** names [x] such that [p] contains a grammar that defines [x] and inside it a non-terminal [x] *)
Fixpoint bound_nts (p : pattern) : list string :=
  match p with
  | PAlt l r | PSeq l r => bound_nts l ++ bound_nts r
  | PStar p | PPlus p | POpt p | PNot p | PAnd p | PCap p _ | PMemo p _ | PCheck p _ _ _ | PSearch p => bound_nts p
  | PGrammar defs _ =>
      (fix go (l : list (string * pattern)) : list string :=
         match l with
         | [] => []
         | (_, q) :: l => filter (fun x => str_mem x (names defs)) (open_nts q) ++ bound_nts q ++ go l
         end) defs
  | PNonTerm _ (Some q) => bound_nts q
  | PError _ (Some q) => bound_nts q
  | _ => []
  end.

(** the scoping discipline: a grammar nested inside another one does not reuse a name of the outer one
    for its own recursive definitions, and the pattern of a Search does not mention a free
    non-terminal "S" (the name Search uses internally) *)
Fixpoint well_scoped (p : pattern) : Prop :=
  match p with
  | PAlt l r | PSeq l r => well_scoped l /\ well_scoped r
  | PStar p | PPlus p | POpt p | PNot p | PAnd p | PCap p _ | PMemo p _ | PCheck p _ _ _ => well_scoped p
  | PSearch p => well_scoped p /\ ~ In "S"%string (free_nts p)
  | PGrammar defs _ =>
      (fix go (l : list (string * pattern)) : Prop :=
         match l with
         | [] => True
         | (_, q) :: l => (well_scoped q /\ forall x, In x (names defs) -> ~ In x (bound_nts q)) /\ go l
         end) defs
  | PNonTerm _ (Some q) => well_scoped q
  | PError _ (Some q) => well_scoped q
  | _ => True
  end.

(** names of the non-terminals of [p] outside of the grammars and searches in [p]: those that the grammar
    around [p] has to define *)
Fixpoint call_nts (p : pattern) : list string :=
  match p with
  | PAlt l r | PSeq l r => call_nts l ++ call_nts r
  | PStar p | PPlus p | POpt p | PNot p | PAnd p | PCap p _ | PMemo p _ | PCheck p _ _ _ => call_nts p
  | PNonTerm x None => [x]
  | PNonTerm _ (Some q) => call_nts q
  | PError _ (Some q) => call_nts q
  | _ => []
  end.

(** [p] contains a grammar that does not define [x] although it is the name of the start or used directly in a
    definition; or a search whose pattern uses [x] directly, for a search is compiled as a grammar
    that defines "S" only *)
Fixpoint undefined (x : string) (p : pattern) : Prop :=
  match p with
  | PAlt l r | PSeq l r => undefined x l \/ undefined x r
  | PStar p | PPlus p | POpt p | PNot p | PAnd p | PCap p _ | PMemo p _ | PCheck p _ _ _ => undefined x p
  | PSearch p => undefined x p \/ (x <> "S"%string /\ In x (call_nts p))
  | PGrammar defs st =>
      (~ In x (names defs) /\ (x = st \/ exists k d, In (k, d) defs /\ In x (call_nts d))) \/
      (fix go (l : list (string * pattern)) : Prop :=
         match l with [] => False | (_, q) :: l => undefined x q \/ go l end) defs
  | PNonTerm _ (Some q) => undefined x q
  | PError _ (Some q) => undefined x q
  | _ => False
  end.
