(** Notions used to state properties of the pattern constructors. *)
From Verif Require Import Base Model_Charset Model_Isa Model_Capture Model_VM Model_Pattern Spec_Peg.
From Coq Require Export Permutation.
Local Open Scope nat_scope.

Section Lists.
Variable s : list byte.
Variable CS : Type.
Variable check : nat -> CS -> list byte -> list byte -> nat -> Z -> Z -> CS * option nat.
Notation peg := (peg s check).

(** the patterns of a list one after the other; stops at the first that does not succeed *)
Inductive in_sequence (E : env) : list pattern -> nat -> world CS -> pres -> world CS -> Prop :=
| is_nil : forall i w, in_sequence E [] i w (RSucc i []) w
| is_ok : forall p ps i w j ts w1 k us w2, peg E p i w (RSucc j ts) w1 -> in_sequence E ps j w1 (RSucc k us) w2 ->
    in_sequence E (p :: ps) i w (RSucc k (ts ++ us)) w2
| is_stop : forall p ps i w r w1, peg E p i w r w1 -> (forall j ts, r <> RSucc j ts) -> in_sequence E (p :: ps) i w r w1
| is_later : forall p ps i w j ts w1 r w2, peg E p i w (RSucc j ts) w1 -> in_sequence E ps j w1 r w2 ->
    (forall j ts, r <> RSucc j ts) -> in_sequence E (p :: ps) i w r w2.

(** the first pattern of a list that does not fail; all are tried at the same position *)
Inductive first_of (E : env) : list pattern -> nat -> world CS -> pres -> world CS -> Prop :=
| fo_none : forall i w, first_of E [] i w RFail w
| fo_here : forall p ps i w r w1, peg E p i w r w1 -> r <> RFail -> first_of E (p :: ps) i w r w1
| fo_next : forall p ps i w w1 r w2, peg E p i w RFail w1 -> first_of E ps i w1 r w2 -> first_of E (p :: ps) i w r w2.

(** the pattern fails at each of the positions i, i+1, ..., k-1 *)
Inductive fails_until (E : env) (p : pattern) : nat -> world CS -> nat -> world CS -> Prop :=
| fu_0 : forall i w, fails_until E p i w i w
| fu_S : forall i w w1 k w2, peg E p i w RFail w1 -> fails_until E p (S i) w1 k w2 -> fails_until E p i w k w2.
End Lists.
Arguments in_sequence s {CS}. Arguments first_of s {CS}. Arguments fails_until s {CS}.

(** the result without the captures *)
Definition forget (r : pres) : pres := match r with RSucc j _ => RSucc j [] | r => r end.

(** [p] and [q] are the same pattern except for the order of the definitions in their grammars, where
    every name is defined once *)
Inductive reorder : pattern -> pattern -> Prop :=
| ro_alt : forall p p' q q', reorder p p' -> reorder q q' -> reorder (PAlt p q) (PAlt p' q')
| ro_seq : forall p p' q q', reorder p p' -> reorder q q' -> reorder (PSeq p q) (PSeq p' q')
| ro_star : forall p p', reorder p p' -> reorder (PStar p) (PStar p')
| ro_plus : forall p p', reorder p p' -> reorder (PPlus p) (PPlus p')
| ro_opt : forall p p', reorder p p' -> reorder (POpt p) (POpt p')
| ro_not : forall p p', reorder p p' -> reorder (PNot p) (PNot p')
| ro_and : forall p p', reorder p p' -> reorder (PAnd p) (PAnd p')
| ro_cap : forall p p' id, reorder p p' -> reorder (PCap p id) (PCap p' id)
| ro_memo : forall p p' id, reorder p p' -> reorder (PMemo p id) (PMemo p' id)
| ro_check : forall p p' ck id fl, reorder p p' -> reorder (PCheck p ck id fl) (PCheck p' ck id fl)
| ro_search : forall p p', reorder p p' -> reorder (PSearch p) (PSearch p')
| ro_gram : forall defs defs' defs'' st, NoDup (map fst defs) -> Permutation defs defs' ->
    Forall2 (fun a b => fst a = fst b /\ reorder (snd a) (snd b)) defs' defs'' ->
    reorder (PGrammar defs st) (PGrammar defs'' st)
| ro_inl : forall x p p', reorder p p' -> reorder (PNonTerm x (Some p)) (PNonTerm x (Some p'))
| ro_err : forall m p p', reorder p p' -> reorder (PError m (Some p)) (PError m (Some p'))
| ro_refl : forall p, reorder p p.

(** the captures a user sees as children of [c]: its children, where an internal node stands for the
    captures below it *)
Fixpoint proper_children (c : capture) : list capture :=
  match c with
  | Capture _ _ _ _ cs =>
      (fix go (cs : list capture) : list capture :=
         match cs with
         | [] => []
         | ch :: cs => (if cap_dummy ch then proper_children ch else [ch]) ++ go cs
         end) cs
  end.

(** a capture lies between [lo] and [hi], its children lie inside it one after the other *)
Fixpoint nested (lo hi : nat) (t : ctree) : Prop :=
  match t with
  | CNode _ st ln kids =>
      lo <= st /\ st + ln <= hi /\
      (fix go (lo : nat) (ts : list ctree) : Prop :=
         match ts with
         | [] => True
         | (CNode _ st' ln' _ as t) :: ts => nested lo (st + ln) t /\ go (st' + ln') ts
         end) st kids
  end.
(** captures one after the other between [lo] and [hi] *)
Fixpoint in_order (lo hi : nat) (ts : list ctree) : Prop :=
  match ts with
  | [] => True
  | (CNode _ st ln _ as t) :: ts => nested lo hi t /\ in_order (st + ln) hi ts
  end.
(** every capture, at every depth, ends at or before [hi] *)
Fixpoint bounded (hi : nat) (t : ctree) : Prop :=
  match t with
  | CNode _ st ln kids =>
      st + ln <= hi /\ (fix go (ts : list ctree) : Prop := match ts with [] => True | t :: ts => bounded hi t /\ go ts end) kids
  end.
(** every capture, at every depth, lies between [lo] and [hi] *)
Fixpoint within (lo hi : nat) (t : ctree) : Prop :=
  match t with
  | CNode _ st ln kids =>
      lo <= st /\ st + ln <= hi /\ (fix go (ts : list ctree) : Prop := match ts with [] => True | t :: ts => within lo hi t /\ go ts end) kids
  end.

(** patterns without And *)
Fixpoint no_and (p : pattern) : Prop :=
  match p with
  | PAlt l r | PSeq l r => no_and l /\ no_and r
  | PStar p | PPlus p | POpt p | PCap p _ | PMemo p _ | PCheck p _ _ _ | PSearch p => no_and p
  | PNot p => True
  | PAnd _ => False
  | PGrammar defs _ =>
      (fix go (l : list (string * pattern)) : Prop :=
         match l with [] => True | (_, q) :: l => no_and q /\ go l end) defs
  | PNonTerm _ (Some q) => no_and q
  | PError _ (Some q) => no_and q
  | _ => True
  end.

(** no check inside [p] defines the reference [id] of checker [k] (flag RefDef) *)
Fixpoint no_def (k : nat) (id : Z) (p : pattern) : Prop :=
  match p with
  | PAlt l r | PSeq l r => no_def k id l /\ no_def k id r
  | PStar p | PPlus p | POpt p | PNot p | PAnd p | PCap p _ | PMemo p _ | PSearch p => no_def k id p
  | PCheck p k' id' fl => no_def k id p /\ ~ (k' = k /\ id' = id /\ (fl mod 256)%Z = 0%Z)
  | PGrammar defs _ =>
      (fix go (l : list (string * pattern)) : Prop :=
         match l with [] => True | (_, q) :: l => no_def k id q /\ go l end) defs
  | PNonTerm _ (Some q) => no_def k id q
  | PError _ (Some q) => no_def k id q
  | _ => True
  end.
