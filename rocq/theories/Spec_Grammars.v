(** A fast check for the texts of grammars: package re accepts the text, the grammar compiles, and parsing with it
    always stops. *)
From Coq Require Import ZArith String.
From Verif Require Import Base Model_Charset Model_Isa Model_Code Model_VM Model_Pattern Model_Re Spec_Scope Spec_Run Spec_Re Spec_Encode.
Local Open Scope nat_scope.

(** [plain] of Spec_Re as a function *)
Definition char_check (c : rchar) : bool := match c with COct ds => (fold_left (fun v d => 8 * v + (bN d - 48)) ds 0 <? 128)%N | _ => true end.
Definition range_check (r : rchar * option rchar) : bool := char_check (fst r) && match snd r with Some b => char_check b | None => true end.
Fixpoint plain_check (e : rexp) : bool :=
  match e with
  | ROr l | RCat l => (fix go (l : list rexp) : bool := match l with [] => true | e :: l => plain_check e && go l end) l
  | RAnd e | RNot e | ROpt e | RStar e | RPlus e | RMemo e => plain_check e
  | RLit cs => forallb char_check cs
  | RSet neg rs => forallb range_check rs && (neg || match rs with [] => false | _ => true end)
  | RBrace _ => false
  | RName _ | RDot => true
  end.

(** the patterns without nested grammars *)
Fixpoint simple (p : pattern) : bool :=
  match p with
  | PAlt l r | PSeq l r => simple l && simple r
  | PStar p | PPlus p | POpt p | PNot p | PAnd p | PCap p _ | PMemo p _ => simple p
  | PEmpty | PLit _ | PClass _ | PNonTerm _ None => true
  | PDot n => byte_eqb n x01
  | _ => false
  end.
(** may match nothing, if the names in [N] are those that may *)
Fixpoint nul (N : list string) (p : pattern) : bool :=
  match p with
  | PAlt l r => nul N l || nul N r
  | PSeq l r => nul N l && nul N r
  | PPlus p | PCap p _ | PMemo p _ => nul N p
  | PLit s => match s with [] => true | _ => false end
  | PClass _ => false
  | PDot n => byte_eqb n x00
  | PNonTerm x None => str_mem x N
  | _ => true
  end.
(** the names that may be called before anything is consumed *)
Fixpoint first_calls (N : list string) (p : pattern) : list string :=
  match p with
  | PAlt l r => first_calls N l ++ first_calls N r
  | PSeq l r => first_calls N l ++ if nul N l then first_calls N r else []
  | PStar p | PPlus p | POpt p | PNot p | PAnd p | PCap p _ | PMemo p _ => first_calls N p
  | PNonTerm x None => [x]
  | _ => []
  end.
(** no repetition of something that may match nothing *)
Fixpoint loops_ok (N : list string) (p : pattern) : bool :=
  match p with
  | PAlt l r | PSeq l r => loops_ok N l && loops_ok N r
  | PStar p | PPlus p => negb (nul N p) && loops_ok N p
  | POpt p | PNot p | PAnd p | PCap p _ | PMemo p _ => loops_ok N p
  | _ => true
  end.
(** the names that may match nothing, and an order in which names come after those they may start with *)
Fixpoint grow_nulls (n : nat) (defs : list (string * pattern)) (N : list string) : list string :=
  match n with
  | O => N
  | S n => let N' := map fst (filter (fun d => nul N (snd d)) defs) in
           if List.length N' =? List.length N then N' else grow_nulls n defs N'
  end.
Fixpoint grow_order (n : nat) (todo : list (string * list string)) (ord : list string) : list string :=
  match n with
  | 0 => ord
  | S n => let (ready, rest) := partition (fun d => forallb (fun y => str_mem y ord) (snd d)) todo in
           match ready with [] => ord | _ => grow_order n rest (ord ++ map fst ready) end
  end.
(** the position of a name in the order *)
Fixpoint rank (ord : list string) (x : string) : nat :=
  match ord with [] => 0 | y :: ord => if String.eqb y x then 0 else S (rank ord x) end.
Definition def_check (N ord : list string) (defined : list string) (d : string * pattern) : bool :=
  let (x, b) := d in
  simple b && loops_ok N b && forallb (fun y => str_mem y defined) (free_nts b) &&
  (negb (nul N b) || str_mem x N) && forallb (fun y => rank ord y <? rank ord x) (first_calls N b).
Fixpoint distinct (l : list string) : bool := match l with [] => true | x :: l => negb (str_mem x l) && distinct l end.
Definition flat_check (p : pattern) : bool :=
  match p with
  | PGrammar defs st =>
      let N := grow_nulls (S (List.length defs)) defs [] in
      let ord := grow_order (S (List.length defs)) (map (fun d => (fst d, first_calls N (snd d))) defs) [] in
      distinct (names defs) && str_mem st (names defs) && forallb (def_check N ord (names defs)) defs
  | _ => false
  end.

(** [encodable] of Spec_Encode, for programs of moderate size *)
Definition cset_add (s : cset) (l : list cset) : list cset := if existsb (cs_eqb s) l then l else s :: l.
Definition fit_check (c : program) : bool :=
  forallb (fun i => match i with IOpenCall _ => false | _ => forallb (fun id => (-32768 <=? id) && (id <? 32768))%Z (ids_of i) end) c &&
  (fold_right (fun i n => N.of_nat (insn_size i) + n) 0 c <? 16777216)%N &&
  (List.length (fold_right cset_add [] (flat_map sets_of c)) <=? 256) &&
  match flat_map messages_of c, flat_map checkers_of c with [], [] => true | _, _ => false end.

(** the pattern that package re makes of the definitions of a grammar *)
Definition grammar_of (capg : bool) (l : list (list byte * rexp)) : pattern :=
  let d := fold_left (fun acc d => put_def (fst d) (snd d) acc) (fst (denote_defs l 0)) [] in
  let st := match l with (x, _) :: _ => name x | [] => ""%string end in
  if capg then fst (p_cap_grammar st d) else PGrammar d st.
Definition compiles (thr n : nat) (p : pattern) (m : Z) : bool :=
  match compile thr n p (CState 0 m) with COk c _ => fit_check c | _ => false end.
Definition light_check (s : list byte) : bool :=
  match read s with
  | Yes (TGrammar l) _ => forallb (fun d => plain_check (snd d)) l && forallb (fun capg => flat_check (grammar_of capg l)) [false; true]
  | _ => false
  end.
(** the program fits into the bytecode; [n]: fuel for the compiler *)
Definition text_check (thr n : nat) (s : list byte) : bool :=
  light_check s &&
  match read s with
  | Yes (TGrammar l) _ => forallb (fun capg => compiles thr n (grammar_of capg l) (snd (denote_defs l 0))) [false; true]
  | _ => false
  end.
