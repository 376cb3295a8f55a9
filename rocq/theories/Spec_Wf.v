(** Well-formed patterns in the sense of Ford: no repetition of a pattern that may match the empty string, and
    no left recursion. *)
From Verif Require Import Base Model_Charset Model_Isa Model_Capture Model_VM Model_Pattern Spec_Peg.
Local Open Scope nat_scope.

(** a pattern together with the scopes its non-terminals refer to *)
Definition closure : Type := (env * pattern)%type.

(** the pattern may succeed without consuming input *)
Inductive nullable : env -> pattern -> Prop :=
| nu_empty : forall E, nullable E PEmpty
| nu_lit : forall E, nullable E (PLit [])
| nu_dot : forall E, nullable E (PDot x00)
| nu_emptyop : forall E op, nullable E (PEmptyOp op)
| nu_not : forall E p, nullable E (PNot p)
| nu_and : forall E p, nullable E (PAnd p)
| nu_star : forall E p, nullable E (PStar p)
| nu_opt : forall E p, nullable E (POpt p)
| nu_alt_l : forall E p q, nullable E p -> nullable E (PAlt p q)
| nu_alt_r : forall E p q, nullable E q -> nullable E (PAlt p q)
| nu_seq : forall E p q, nullable E p -> nullable E q -> nullable E (PSeq p q)
| nu_plus : forall E p, nullable E p -> nullable E (PPlus p)
| nu_cap : forall E p id, nullable E p -> nullable E (PCap p id)
| nu_memo : forall E p id, nullable E p -> nullable E (PMemo p id)
| nu_check : forall E p k id fl, nullable E p -> nullable E (PCheck p k id fl)
| nu_search : forall E p, nullable E p -> nullable E (PSearch p)
| nu_error : forall E m q, nullable E q -> nullable E (PError m (Some q))
| nu_inl : forall E x q, nullable E q -> nullable E (PNonTerm x (Some q))
| nu_grammar : forall E defs st b, assoc defs st = Some b -> nullable (defs :: E) b -> nullable E (PGrammar defs st)
| nu_nt : forall E x b E', lookup E x = Some (b, E') -> nullable E' b -> nullable E (PNonTerm x None).

(** [below c d]: matching [d] may start by matching [c] at the same position.  [within c d]: matching [d] may match [c]
    somewhere. *)
Inductive below : closure -> closure -> Prop :=
| be_alt_l : forall E p q, below (E, p) (E, PAlt p q)
| be_alt_r : forall E p q, below (E, q) (E, PAlt p q)
| be_seq_l : forall E p q, below (E, p) (E, PSeq p q)
| be_seq_r : forall E p q, nullable E p -> below (E, q) (E, PSeq p q)
| be_star : forall E p, below (E, p) (E, PStar p)
| be_plus : forall E p, below (E, p) (E, PPlus p)
| be_opt : forall E p, below (E, p) (E, POpt p)
| be_not : forall E p, below (E, p) (E, PNot p)
| be_and : forall E p, below (E, p) (E, PAnd p)
| be_cap : forall E p id, below (E, p) (E, PCap p id)
| be_memo : forall E p id, below (E, p) (E, PMemo p id)
| be_check : forall E p k id fl, below (E, p) (E, PCheck p k id fl)
| be_search : forall E p, below (E, p) (E, PSearch p)
| be_error : forall E m q, below (E, q) (E, PError m (Some q))
| be_inl : forall E x q, below (E, q) (E, PNonTerm x (Some q))
| be_grammar : forall E defs st b, assoc defs st = Some b -> below (defs :: E, b) (E, PGrammar defs st)
| be_nt : forall E x b E', lookup E x = Some (b, E') -> below (E', b) (E, PNonTerm x None).
Inductive within : closure -> closure -> Prop :=
| in_below : forall c d, below c d -> within c d
| in_seq_r : forall E p q, within (E, q) (E, PSeq p q).

Inductive reachable (d : closure) : closure -> Prop :=
| re_self : reachable d d
| re_step : forall c c', reachable d c' -> within c c' -> reachable d c.

(** locally: the body of a repetition is not nullable, a start or a non-terminal is defined *)
Definition sensible (c : closure) : Prop :=
  match c with
  | (E, PStar p) | (E, PPlus p) => ~ nullable E p
  | (E, PGrammar defs st) => assoc defs st <> None
  | (E, PNonTerm x None) => lookup E x <> None
  | _ => True
  end.
(** [Acc below c]: there is no infinite chain of patterns, each the start of the one before, in particular
    no non-terminal reached again at the same position *)
Definition well_formed (d : closure) : Prop := forall c, reachable d c -> Acc below c /\ sensible c.

(** A check for well-formedness that can be computed; [n] bounds the depth of the exploration. *)
Fixpoint may_be_null (n : nat) (E : env) (p : pattern) : bool :=
  match n with
  | O => true
  | S n =>
    match p with
    | PEmpty | PEmptyOp _ | PNot _ | PAnd _ | PStar _ | POpt _ => true
    | PLit str => match str with [] => true | _ => false end
    | PClass _ | PError _ None => false
    | PDot k => byte_eqb k x00
    | PAlt l r => may_be_null n E l || may_be_null n E r
    | PSeq l r => may_be_null n E l && may_be_null n E r
    | PPlus p | PCap p _ | PMemo p _ | PCheck p _ _ _ | PSearch p | PError _ (Some p) | PNonTerm _ (Some p) => may_be_null n E p
    | PGrammar defs st => match assoc defs st with Some b => may_be_null n (defs :: E) b | None => false end
    | PNonTerm x None => match lookup E x with Some (b, E') => may_be_null n E' b | None => false end
    end
  end.
Fixpoint starts_check (n : nat) (E : env) (p : pattern) : bool :=
  match n with
  | O => false
  | S n' =>
    match p with
    | PEmpty | PEmptyOp _ | PLit _ | PClass _ | PError _ None | PDot _ => true
    | PAlt l r => starts_check n' E l && starts_check n' E r
    | PSeq l r => starts_check n' E l && (negb (may_be_null n E l) || starts_check n' E r)
    | PStar p | PPlus p | POpt p | PNot p | PAnd p | PCap p _ | PMemo p _ | PCheck p _ _ _ | PSearch p | PError _ (Some p) | PNonTerm _ (Some p) => starts_check n' E p
    | PGrammar defs st => match assoc defs st with Some b => starts_check n' (defs :: E) b | None => true end
    | PNonTerm x None => match lookup E x with Some (b, E') => starts_check n' E' b | None => true end
    end
  end.
Definition sensible_check (n : nat) (E : env) (p : pattern) : bool :=
  match p with
  | PStar p | PPlus p => negb (may_be_null n E p)
  | PGrammar defs st => match assoc defs st with Some _ => true | None => false end
  | PNonTerm x None => match lookup E x with Some _ => true | None => false end
  | _ => true
  end.
Fixpoint scopes_check (n : nat) (E : env) (p : pattern) : bool :=
  starts_check n E p && sensible_check n E p &&
  match p with
  | PAlt l r | PSeq l r => scopes_check n E l && scopes_check n E r
  | PStar p | PPlus p | POpt p | PNot p | PAnd p | PCap p _ | PMemo p _ | PCheck p _ _ _ | PSearch p => scopes_check n E p
  | PError _ (Some p) | PNonTerm _ (Some p) => scopes_check n E p
  | PGrammar defs _ =>
      (fix go (l : list (string * pattern)) : bool :=
         match l with [] => true | (_, q) :: l => scopes_check n (defs :: E) q && go l end) defs
  | _ => true
  end.
Definition wf_check (n : nat) (p : pattern) : bool := scopes_check n [] p.
