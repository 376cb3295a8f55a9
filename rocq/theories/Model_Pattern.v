(** Model of pattern/nodes.go, pattern/pattern.go, pattern/optimize.go and pattern/compile.go. *)
From Verif Require Import Base Model_Charset Model_Isa.
Local Open Scope nat_scope.

(** nodes.go:16-124.  A Go map of definitions is an association list; a theorem quantifying over
    the list quantifies over every iteration order.  [PNonTerm name inl]: [inl] is the field
    Inlined (nil = None).  The code shares and mutates nodes through pointers (Inlined is set in
    place by inline()); the model copies instead, which is faithful as long as a NonTerm node is
    not shared between two different grammars.  RepeatNode (nodes.go:83-86) is never built. *)
Inductive pattern :=
| PAlt (l r : pattern)
| PSeq (l r : pattern)
| PStar (p : pattern)
| PPlus (p : pattern)
| POpt (p : pattern)
| PNot (p : pattern)
| PAnd (p : pattern)
| PCap (p : pattern) (id : Z)
| PMemo (p : pattern) (id : Z)
| PCheck (p : pattern) (ck : nat) (id flag : Z)
| PGrammar (defs : list (string * pattern)) (start : string)
| PSearch (p : pattern)
| PClass (s : cset)
| PLit (str : list byte)
| PNonTerm (name : string) (inl : option pattern)
| PDot (n : byte)
| PError (msg : string) (recover : option pattern)
| PEmptyOp (op : byte)
| PEmpty.

(** map lookup [m[k]] *)
Fixpoint assoc {A} (l : list (string * A)) (k : string) : option A :=
  match l with
  | [] => None
  | (k', v) :: l => if String.eqb k' k then Some v else assoc l k
  end.

(* ---------- pattern.go constructors ---------- *)

(** pattern.go:82-95 Repeat; n is a Go int, values <= 0 give the empty pattern *)
Definition p_repeat (p : pattern) (n : Z) : pattern :=
  if (n <=? 0)%Z then PEmpty
  else Nat.iter (Z.to_nat n - 1) (fun acc => PSeq acc p) p.

(** pattern.go:98-112 Concat *)
Definition p_concat (ps : list pattern) : pattern :=
  match ps with
  | [] => PEmpty
  | p :: ps => fold_left (fun acc q => PSeq acc q) ps p
  end.

(** pattern.go:115-130 Or: [acc := patts[len-1]; for i := len-2 downto 0 { acc = Alt(patts[i], acc) }] *)
Definition p_or (ps : list pattern) : pattern :=
  match rev ps with
  | [] => PEmpty
  | last :: before => fold_left (fun acc q => PAlt q acc) before last
  end.

(** pattern.go:210-219 CapGrammar: the grammar and the ids map it fills in *)
Fixpoint cap_defs (defs : list (string * pattern)) (id : Z) : list (string * pattern) * list (string * Z) :=
  match defs with
  | [] => ([], [])
  | (k, v) :: defs =>
      let (m, ids) := cap_defs defs (id + 1) in
      ((k, PCap v id) :: m, (k, id) :: ids)
  end.
Definition p_cap_grammar (start : string) (defs : list (string * pattern)) : pattern * list (string * Z) :=
  let (m, ids) := cap_defs defs 0 in (PGrammar m start, ids).

(* ---------- nodes.go: WalkPattern ---------- *)

(** nodes.go:141-179 with a counting function: number of patterns visited by
    WalkPattern(p, true, ...).  WalkPattern(nil) for a nil Recover visits the nil once. *)
Fixpoint psize (p : pattern) : nat :=
  match p with
  | PAlt l r | PSeq l r => S (psize l + psize r)
  | PStar p | PPlus p | POpt p | PNot p | PAnd p | PCap p _ | PMemo p _ | PCheck p _ _ _ | PSearch p => S (psize p)
  | PGrammar defs _ => S ((fix go (l : list (string * pattern)) : nat :=
                             match l with [] => 0 | (_, q) :: l => psize q + go l end) defs)
  | PNonTerm _ (Some q) => S (psize q)
  | PError _ (Some q) => S (psize q)
  | PError _ None => 2
  | _ => 1
  end.

(** the names of non-terminals with Inlined == nil visited by WalkPattern(p, true, ...):
    used at optimize.go:110-118 (leaf) and compile.go:373-380 (used) *)
Fixpoint open_nts (p : pattern) : list string :=
  match p with
  | PAlt l r | PSeq l r => open_nts l ++ open_nts r
  | PStar p | PPlus p | POpt p | PNot p | PAnd p | PCap p _ | PMemo p _ | PCheck p _ _ _ | PSearch p => open_nts p
  | PGrammar defs _ => (fix go (l : list (string * pattern)) : list string :=
                             match l with [] => [] | (_, q) :: l => open_nts q ++ go l end) defs
  | PNonTerm x None => [x]
  | PNonTerm _ (Some q) => open_nts q
  | PError _ (Some q) => open_nts q
  | _ => []
  end.

Definition is_leaf (p : pattern) : bool := match open_nts p with [] => true | _ => false end.

(* ---------- optimize.go ---------- *)

(** optimize.go:142-170 combine *)
Definition combine (p1 p2 : pattern) : option cset :=
  match p1, p2 with
  | PLit [a], PClass s => Some (cs_add s (cs_new [a]))
  | PLit [a], PLit [b] => Some (cs_new [a; b])
  | PClass s1, PClass s2 => Some (cs_add s2 s1)
  | PClass s, PLit [b] => Some (cs_add s (cs_new [b]))
  | _, _ => None
  end.

(** the part of Get (optimize.go:60-99) for a sequence whose simplified left side is [Not nn]:
    [gnn] is Get(nn.Patt), [r] the simplified right side, [p] the original node *)
Definition get_not_seq (p gnn r : pattern) : pattern :=
  let set := match gnn with
             | PLit [a] => Some (cs_new [a])
             | PClass s => Some s
             | _ => None
             end in
  match set with
  | None => p
  | Some set =>
      match r with
      | PDot x01 => PClass (cs_compl set)
      | PClass s => PClass (cs_sub s set)
      | PLit [b] => PClass (cs_sub (cs_new [b]) set)
      | _ => p
      end
  end.

(** optimize.go:21-101 Get.  Fuel bounds the recursion depth; psize p always suffices
    (lemma get_fuel_enough), and [get] uses it. *)
Fixpoint get_f (fuel : nat) (p : pattern) : pattern :=
  match fuel with
  | O => p
  | S fuel =>
    match p with
    | PNonTerm _ (Some q) => q
    | PAlt pl pr =>
        let l := get_f fuel pl in let r := get_f fuel pr in
        match l with
        | PEmpty => PEmpty
        | _ =>
            match r with
            | PEmpty => get_f fuel (POpt l)
            | _ => match combine l r with Some set => PClass set | None => p end
            end
        end
    | POpt q =>
        match get_f fuel q with
        | PStar q' => PStar q'
        | _ => p
        end
    | PSeq pl pr =>
        let l := get_f fuel pl in let r := get_f fuel pr in
        match r with
        | PEmpty => l
        | _ =>
            match l with
            | PEmpty => r
            | PNot nn => get_not_seq p (get_f fuel nn) r
            | _ => p
            end
        end
    | _ => p
    end
  end.

Definition get (p : pattern) : pattern := get_f (psize p) p.

(** the inner loop of inline() (optimize.go:124-136): set Inlined on every visited non-terminal
    that [f] wants to inline *)
Fixpoint inline_in (f : string -> option pattern) (p : pattern) : pattern :=
  match p with
  | PAlt l r => PAlt (inline_in f l) (inline_in f r)
  | PSeq l r => PSeq (inline_in f l) (inline_in f r)
  | PStar p => PStar (inline_in f p)
  | PPlus p => PPlus (inline_in f p)
  | POpt p => POpt (inline_in f p)
  | PNot p => PNot (inline_in f p)
  | PAnd p => PAnd (inline_in f p)
  | PCap p id => PCap (inline_in f p) id
  | PMemo p id => PMemo (inline_in f p) id
  | PCheck p ck id fl => PCheck (inline_in f p) ck id fl
  | PSearch p => PSearch (inline_in f p)
  | PGrammar defs st =>
      PGrammar ((fix go (l : list (string * pattern)) : list (string * pattern) :=
                   match l with [] => [] | (k, q) :: l => (k, inline_in f q) :: go l end) defs) st
  | PNonTerm x None => PNonTerm x (f x)
  | PNonTerm x (Some q) => PNonTerm x (Some (inline_in f q))
  | PError m (Some q) => PError m (Some (inline_in f q))
  | p => p
  end.

Section Inline.
(** optimize.go:9 [var InlineThreshold = 100] *)
Variable threshold : nat.

(** which definition is inlined for a name (optimize.go:127-133): known, smaller than the
    threshold, and without open non-terminals *)
Definition inline_choice (defs : list (string * pattern)) (x : string) : option pattern :=
  match assoc defs x with
  | Some q => if (psize q <? threshold) && is_leaf q then Some q else None
  | None => None
  end.

(** optimize.go:104-138 inline(): one pass over all definitions *)
Definition inline_pass (defs : list (string * pattern)) : list (string * pattern) :=
  map (fun kq => (fst kq, inline_in (inline_choice defs) (snd kq))) defs.

(** didInline: some open non-terminal of some definition is chosen *)
Definition did_inline (defs : list (string * pattern)) : bool :=
  existsb (fun kq => existsb (fun x => match inline_choice defs x with Some _ => true | None => false end)
                             (open_nts (snd kq))) defs.

(** optimize.go:12-15 Inline: [for p.inline() {}].  The number of open non-terminals decreases with
    every pass that inlines something, so their number bounds the passes (lemma inline_all_fix). *)
Fixpoint inline_n (n : nat) (defs : list (string * pattern)) : list (string * pattern) :=
  match n with
  | O => defs
  | S n => if did_inline defs then inline_n n (inline_pass defs) else defs
  end.

Definition count_open (defs : list (string * pattern)) : nat :=
  list_sum (map (fun kq => List.length (open_nts (snd kq))) defs).

Definition inline_all (defs : list (string * pattern)) : list (string * pattern) :=
  inline_n (S (count_open defs)) defs.

(* ---------- compile.go ---------- *)

(** state of the compiler: isa.uniqId (isa.go:40) and memoId (pattern.go:37) *)
Record cstate := CState { cs_uniq : nat; cs_memo : Z }.

(** outcome of a compilation: code, NotFoundError, nil pattern panic, or out of fuel *)
Inductive cres :=
| COk (c : program) (st : cstate)
| CNotFound (name : string)
| CNilPanic
| CFuel.

(** isa.go:50-55 NewLabel *)
Definition new_label (st : cstate) : nat * cstate :=
  let u := S (cs_uniq st) in (u, CState u (cs_memo st)).

(** compile.go:75-96: the test instruction when the alternatives are disjoint.
    [Some t] is (disjoint = true, testinsn = t). *)
Definition alt_test (l r : program) (L1 : nat) : option insn :=
  match next_insn l, next_insn r with
  | Some (ISet s), Some (IChar b) => if cs_has s b then None else Some (ITestSetNoChoice s L1)
  | Some (IChar a), Some (IChar b) => if byte_eqb a b then None else Some (ITestCharNoChoice a L1)
  | Some (IChar a), Some (ISet s) => if cs_has s a then None else Some (ITestCharNoChoice a L1)
  | _, _ => None
  end.

(** compile.go:98-112 assembling an alternation *)
Definition alt_code (l r : program) (L1 L2 : nat) : program :=
  match alt_test l r L1 with
  | Some t => t :: tl l ++ [IJump L2; ILabel L1] ++ r ++ [ILabel L2]
  | None => IChoice L1 :: l ++ [ICommit L2; ILabel L1] ++ r ++ [ILabel L2]
  end.

(** compile.go:260-273: length of the leading run of Char/Set/Any and the bytes it consumes *)
Fixpoint cap_prefix (p : program) : nat * N :=
  match p with
  | IChar _ :: p | ISet _ :: p => let (i, back) := cap_prefix p in (S i, (back + 1)%N)
  | IAny n :: p => let (i, back) := cap_prefix p in (S i, (back + bN n)%N)
  | _ => (0, 0%N)
  end.

(** compile.go:258-288 assembling a capture *)
Definition cap_code (sub : program) (id : Z) : program :=
  let (i, back) := cap_prefix sub in
  if (i =? 0) || (256 <=? back)%N then ICaptureBegin id :: sub ++ [ICaptureEnd]
  else if i =? List.length sub then sub ++ [ICaptureFull (N2b back) id]
  else firstn i sub ++ [ICaptureLate (N2b back) id] ++ skipn i sub ++ [ICaptureEnd].

(** compile.go:329-345: the set to skip in a search *)
Definition search_skip (sub : program) : option cset :=
  match next_insn sub with
  | Some (IChar b) => Some (cs_compl (cs_new [b]))
  | Some (ISet s) => if cs_size s <? 10 then Some (cs_compl s) else None
  | _ => None
  end.

(** compile.go:353-355: the grammar a search is compiled as *)
Definition search_body (p : pattern) (skip : option cset) : pattern :=
  let rsearch := match skip with
                 | Some set => p_concat [PStar (PClass set); PNonTerm "S" None]
                 | None => PNonTerm "S" None
                 end in
  p_or [get p; p_concat [PDot x01; rsearch]].
Definition search_grammar (p : pattern) (skip : option cset) : pattern :=
  PGrammar [("S"%string, search_body p skip)] "S".

(** compile.go:408-438: resolve open calls, tail calls become jumps, and a return that only
    follows such a call becomes a Nop.  The loop runs left to right over the code array;
    [i] is the loop index, [n] the number of iterations left.  [inl s] is NotFoundError s. *)
Fixpoint resolve_loop (n : nat) (i : nat) (lbls : list (string * nat)) (code : program) : string + program :=
  match n with
  | O => inr code
  | S n =>
    match nth_error code i with
    | Some (IOpenCall x) =>
        match assoc lbls x with
        | None => inl x
        | Some l =>
            match next_insn (skipn (S i) code) with
            | Some IReturn =>
                let code1 := match next_insn_label (skipn (S i) code) with
                             | (Some ret, false) => upd (S i + ret) INop code
                             | _ => code
                             end in
                resolve_loop n (S i) lbls (upd i (IJump l) code1)
            | _ => resolve_loop n (S i) lbls (upd i (ICall l) code)
            end
        end
    | _ => resolve_loop n (S i) lbls code
    end
  end.
Definition resolve (lbls : list (string * nat)) (code : program) : string + program :=
  resolve_loop (List.length code) 0 lbls code.

(** used[k] of compile.go:371-381 *)
Definition used_names (defs : list (string * pattern)) : list string :=
  List.concat (map (fun kq => open_nts (snd kq)) defs).
Definition str_mem (x : string) (l : list string) : bool := existsb (String.eqb x) l.

(** sequencing of compilations *)
Definition cbind (r : cres) (k : program -> cstate -> cres) : cres :=
  match r with COk c st => k c st | r => r end.

(** the methods Compile (compile.go:53-500).  Fuel bounds the recursion depth. *)
Fixpoint compile_f (fuel : nat) (p : pattern) (st : cstate) {struct fuel} : cres :=
  match fuel with
  | O => CFuel
  | S fuel =>
    match p with
    | PAlt pl pr =>                                                   (* compile.go:53-113 *)
        match combine (get pl) (get pr) with
        | Some set => COk [ISet set] st
        | None =>
            cbind (compile_f fuel (get pl) st) (fun l st =>
            cbind (compile_f fuel (get pr) st) (fun r st =>
            let (L1, st) := new_label st in
            let (L2, st) := new_label st in
            COk (alt_code l r L1 L2) st))
        end
    | PSeq pl pr =>                                                   (* compile.go:116-127 *)
        cbind (compile_f fuel (get pl) st) (fun l st =>
        cbind (compile_f fuel (get pr) st) (fun r st =>
        COk (l ++ r) st))
    | PStar q =>                                                      (* compile.go:130-175 *)
        match get q with
        | PClass s => COk [ISpan s] st
        | PMemo q' _ =>
            cbind (compile_f fuel (get q') st) (fun sub st =>
            let (L1, st) := new_label st in
            let (L2, st) := new_label st in
            let (L3, st) := new_label st in
            let (NoJump, st) := new_label st in
            let m := (cs_memo st + 1)%Z in
            let st := CState (cs_uniq st) m in
            COk ([ILabel L1; IMemoTreeOpen L3 m; IChoice L2] ++ sub ++
                 [ICommit NoJump; ILabel NoJump; IMemoTreeInsert; ILabel L3; IMemoTree; IJump L1;
                  ILabel L2; IMemoTreeClose m]) st)
        | gq =>
            cbind (compile_f fuel gq st) (fun sub st =>
            let (L1, st) := new_label st in
            let (L2, st) := new_label st in
            COk ([IChoice L2; ILabel L1] ++ sub ++ [IPartialCommit L1; ILabel L2]) st)
        end
    | PPlus q =>                                                      (* compile.go:178-193 *)
        cbind (compile_f fuel (PStar (get q)) st) (fun star st =>
        cbind (compile_f fuel (get q) st) (fun sub st =>
        COk (sub ++ star) st))
    | POpt q =>                                                       (* compile.go:196-222 *)
        match get q with
        | PLit [b] => let (L1, st) := new_label st in COk [ITestCharNoChoice b L1; ILabel L1] st
        | PClass s => let (L1, st) := new_label st in COk [ITestSetNoChoice s L1; ILabel L1] st
        | gq => compile_f fuel (PAlt gq PEmpty) st
        end
    | PNot q =>                                                       (* compile.go:225-234 *)
        cbind (compile_f fuel (get q) st) (fun sub st =>
        let (L1, st) := new_label st in
        COk ([IChoice L1] ++ sub ++ [IFailTwice; ILabel L1]) st)
    | PAnd q =>                                                       (* compile.go:237-250 *)
        cbind (compile_f fuel (get q) st) (fun sub st =>
        let (L1, st) := new_label st in
        let (L2, st) := new_label st in
        COk ([IChoice L1] ++ sub ++ [IBackCommit L2; ILabel L1; IFail; ILabel L2]) st)
    | PCap q id =>                                                    (* compile.go:253-289 *)
        cbind (compile_f fuel (get q) st) (fun sub st => COk (cap_code sub id) st)
    | PMemo q id =>                                                   (* compile.go:292-301 *)
        let (L1, st) := new_label st in
        cbind (compile_f fuel (get q) st) (fun sub st =>
        COk ([IMemoOpen L1 id] ++ sub ++ [IMemoClose; ILabel L1]) st)
    | PCheck q ck id flag =>                                          (* compile.go:304-316 *)
        let (L1, st) := new_label st in
        cbind (compile_f fuel (get q) st) (fun sub st =>
        COk ([ICheckBegin id flag] ++ sub ++ [ICheckEnd ck; ILabel L1]) st)
    | PSearch q =>                                                    (* compile.go:319-356 *)
        cbind (compile_f fuel (get q) st) (fun sub st =>
        compile_f fuel (search_grammar q (search_skip sub)) st)
    | PEmptyOp op => COk [IEmpty op] st                               (* compile.go:359-365 *)
    | PGrammar defs0 start =>                                         (* compile.go:368-443 *)
        let defs := inline_all defs0 in
        let used := used_names defs in
        match used with
        | [] => match assoc defs start with
                | Some q => compile_f fuel q st
                | None => CNilPanic                                   (* nil interface method call *)
                end
        | _ =>
            let (LEnd, st) := new_label st in
            (* the loop over the definitions, compile.go:392-405 *)
            let fix loop (ds : list (string * pattern)) (st : cstate)
                         (code : program) (lbls : list (string * nat)) {struct ds}
                : cres * list (string * nat) :=
              match ds with
              | [] => (COk code st, lbls)
              | (k, v) :: ds =>
                  if negb (String.eqb k start) && negb (str_mem k used) then loop ds st code lbls
                  else
                    let (lbl, st) := new_label st in
                    match compile_f fuel v st with
                    | COk fn st => loop ds st (code ++ [ILabel lbl] ++ fn ++ [IReturn]) (lbls ++ [(k, lbl)])
                    | r => (r, lbls)
                    end
              end in
            match loop defs st [IOpenCall start; IJump LEnd] [] with
            | (COk code st, lbls) =>
                match resolve lbls code with
                | inl x => CNotFound x
                | inr code => COk (code ++ [ILabel LEnd]) st
                end
            | (r, _) => r
            end
        end
    | PClass s => COk [ISet s] st                                     (* compile.go:446-450 *)
    | PLit str => COk (map IChar str) st                              (* compile.go:453-459 *)
    | PNonTerm _ (Some q) => compile_f fuel q st                      (* compile.go:462-465 *)
    | PNonTerm x None => COk [IOpenCall x] st                         (* compile.go:466-469 *)
    | PDot n => COk [IAny n] st                                       (* compile.go:472-476 *)
    | PError m None => COk [IError m; IEnd true] st                   (* compile.go:479-495 *)
    | PError m (Some q) =>
        cbind (compile_f fuel (get q) st) (fun rec st => COk (IError m :: rec) st)
    | PEmpty => COk [] st                                             (* compile.go:498-500 *)
    end
  end.
End Inline.

(* ---------- optimize.go: Optimize ---------- *)

(** one iteration of the loop optimize.go:217-258 at index [i].  [insn] is p[i] read at the start of
    the iteration, so a Jump test sees the instruction before the head-fail rewrite. *)
Definition opt_step (lbl : nat -> nat) (p : program) (i : nat) : program :=
  match nth_error p i with
  | Some (IChoice l) =>
      match nth_error p (S i) with
      | Some (IChar b) => upd (S i) INop (upd i (ITestChar b l) p)
      | Some (ISet s) => upd (S i) INop (upd i (ITestSet s l) p)
      | Some (IAny n) => upd (S i) INop (upd i (ITestAny n l) p)
      | _ => p
      end
  | Some (IJump l) =>
      match next_insn (skipn (lbl l) p) with
      | Some ((IPartialCommit _ | IBackCommit _ | ICommit _ | IJump _ | IReturn | IFail | IFailTwice | IEnd _) as j) =>
          upd i j p
      | _ => p
      end
  | _ => p
  end.

(** optimize.go:207-259 Optimize (in-place rewriting of the array, left to right; the label map is
    computed once at the start) *)
Definition optimize (p : program) : program :=
  fold_left (opt_step (lbl_index p)) (seq 0 (List.length p)) p.

(** compile.go:21-29 Compile: the top-level function does not call Get on p itself *)
Definition compile (threshold fuel : nat) (p : pattern) (st : cstate) : cres :=
  match compile_f threshold fuel p st with
  | COk c st => COk (optimize c) st
  | r => r
  end.
