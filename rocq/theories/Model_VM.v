(** Model of vm/stack.go and vm/vm.go. *)
From Verif Require Import Base Model_Charset Model_Isa Model_Capture Model_Input Model_Code.
Local Open Scope nat_scope.

(** stack.go:35-78: kinds of stack entries (stRet, stBtrack, stMemo, stMemoTree, stCapt, stCheck) *)
Inductive skind :=
| KRet (ret : nat)
| KBtrack (ip off : nat)
| KMemo (id : Z) (pos : nat)
| KTree (id : Z) (pos count : nat)
| KCapt (id : Z) (pos : nat)
| KCheck (id flag : Z) (pos : nat).

(** stack.go:44-54 stackEntry.  The model is functional: captures are lists, so slices that share
    spare capacity (append in stack.go:56-65) are not modelled. *)
Record sentry := SE { s_kind : skind; s_capt : list capture }.

(** memo/entry.go:12-18 Entry as returned by Table.Get; [me_len = None] is length -1 *)
Record mentry := MEntry { me_len : option nat; me_count : nat; me_capt : list capture }.

(** memo/table.go:7-25 the interface used by the machine.  Get also returns the new state of the
    table: a lookup in an interval map applies pending shifts. *)
Record table_ops (T : Type) := TableOps {
  t_get : T -> Z -> nat -> option mentry * T;
  t_put : T -> Z -> nat -> option nat -> nat -> nat -> list capture -> T;
  t_edit : T -> nat -> nat -> nat -> T
}.
Arguments t_get {T}. Arguments t_put {T}. Arguments t_edit {T}.

(** memo/none.go:4-15 NoneTable *)
Definition none_table : table_ops unit :=
  TableOps unit (fun t _ _ => (None, t)) (fun _ _ _ _ _ _ _ => tt) (fun _ _ _ _ => tt).

(** EmptyOp bits and EmptyOpContext of Go's standard library regexp/syntax, on runes given as
    [option byte] (None is -1) *)
Definition is_word_char (b : byte) : bool :=
  let n := bN b in
  ((65 <=? n) && (n <=? 90) || (97 <=? n) && (n <=? 122) || (48 <=? n) && (n <=? 57) || (n =? 95))%N.
Definition empty_op_context (r1 r2 : option byte) : N :=
  let op := 32%N in
  let b1 := match r1 with Some b => is_word_char b | None => false end in
  let op := match r1 with
            | Some b => if is_word_char b then op else if byte_eqb b x0a then N.lor op 1 else op
            | None => N.lor op 5
            end in
  let b2 := match r2 with Some b => is_word_char b | None => false end in
  let op := match r2 with
            | Some b => if is_word_char b then op else if byte_eqb b x0a then N.lor op 2 else op
            | None => N.lor op 10
            end in
  if xorb b1 b2 then N.lxor op 48 else op.

(** what Exec returns (vm.go:31); [None] capture is nil *)
Inductive outcome := Outcome (ok : bool) (pos : nat) (capt : option capture) (errs : list (nat * string)).

(** stack.go:12-18 addCapt: to the top entry, or to the stack's own list when it is empty *)
Definition add_capt (cs : list capture) (stk : list sentry) (base : list capture) : list sentry * list capture :=
  match stk with
  | [] => ([], base ++ cs)
  | e :: stk => (SE (s_kind e) (s_capt e ++ cs) :: stk, base)
  end.

(** vm.go:500-505 overlaps *)
Definition ivl_overlaps (i : option (nat * nat)) (low high : nat) : bool :=
  match i with None => true | Some (l, h) => (l <? high) && (low <? h) end.

Section VM.
Variable bufsz : nat.
Variable T : Type.
Variable ops : table_ops T.
(** state of the user's checkers, and the call of Checker.Check (isa/checker.go:11-13):
    checker, state, matched bytes, whole input, current position, id, flag; result -1 is None *)
Variable CS : Type.
Variable check : nat -> CS -> list byte -> list byte -> nat -> Z -> Z -> CS * option nat.
(** the interval argument of exec (vm.go:54) *)
Variable intrvl : option (nat * nat).

Record mstate := MS {
  m_ip : nat; m_src : input; m_stk : list sentry; m_base : list capture;
  m_tbl : T; m_errs : list (nat * string); m_cs : CS; m_range : nat * nat }.

Inductive step_res := Next (st : mstate) | Done (o : outcome) (st : mstate) | Crash.

Definition set_ip ip st := MS ip (m_src st) (m_stk st) (m_base st) (m_tbl st) (m_errs st) (m_cs st) (m_range st).
Definition set_src s st := MS (m_ip st) s (m_stk st) (m_base st) (m_tbl st) (m_errs st) (m_cs st) (m_range st).
Definition set_stk k b st := MS (m_ip st) (m_src st) k b (m_tbl st) (m_errs st) (m_cs st) (m_range st).
Definition set_tbl t st := MS (m_ip st) (m_src st) (m_stk st) (m_base st) t (m_errs st) (m_cs st) (m_range st).
Definition set_errs e st := MS (m_ip st) (m_src st) (m_stk st) (m_base st) (m_tbl st) e (m_cs st) (m_range st).
Definition set_cs c st := MS (m_ip st) (m_src st) (m_stk st) (m_base st) (m_tbl st) (m_errs st) c (m_range st).
Definition set_range r st := MS (m_ip st) (m_src st) (m_stk st) (m_base st) (m_tbl st) (m_errs st) (m_cs st) r.

Definition push (k : skind) (st : mstate) : mstate := set_stk (SE k [] :: m_stk st) (m_base st) st.
Definition add (cs : list capture) (st : mstate) : mstate :=
  let (k, b) := add_capt cs (m_stk st) (m_base st) in set_stk k b st.
Definition mpos (st : mstate) : nat := i_pos (m_src st).

(** stack.go:100-114 pop *)
Definition pop (propagate : bool) (st : mstate) : option sentry * mstate :=
  match m_stk st with
  | [] => (None, st)
  | e :: stk =>
      let st := set_stk stk (m_base st) st in
      (Some e, if propagate then add (s_capt e) st else st)
  end.

Definition advance1 (st : mstate) : mstate := set_src (snd (i_advance bufsz (m_src st) 1)) st.
Definition advance (n : nat) (st : mstate) : mstate := set_src (snd (i_advance bufsz (m_src st) n)) st.
Definition peek (st : mstate) : option byte * mstate :=
  let (b, s) := i_peek (m_src st) in (b, set_src s st).

(** vm.go:75-81 memoize *)
Definition memoize (id : Z) (pos : nat) (mlen : option nat) (count : nat) (capt : list capture) (st : mstate) : mstate :=
  let capt := match intrvl with Some _ => [] | None => capt end in
  let mexam := Nat.max (i_furthest (m_src st)) (mpos st) - pos + 1 in
  set_tbl (t_put ops (m_tbl st) id pos mlen mexam count capt) st.

(** vm.go:447-469 the fail label *)
Fixpoint do_fail (stk : list sentry) (st : mstate) : step_res :=
  match stk with
  | [] => Done (Outcome false (mpos st) None (m_errs st)) (set_stk [] (m_base st) st)
  | e :: stk =>
    match s_kind e with
    | KBtrack ip off =>
        Next (set_ip ip (set_src (snd (i_seek bufsz (m_src st) off)) (set_stk stk (m_base st) st)))
    | KMemo id pos => do_fail stk (memoize id pos None 0 [] st)
    | KTree _ _ _ => Next (set_stk stk (m_base st) st)
    | KRet _ | KCapt _ _ | KCheck _ _ _ => do_fail stk st
    end
  end.
Definition fail (st : mstate) : step_res := do_fail (m_stk st) st.

(** vm.go:151-158 the loop of opSpan; at most one iteration per remaining byte *)
Fixpoint span_loop (fuel : nat) (s : cset) (st : mstate) : mstate :=
  let (b, st) := peek st in
  match fuel, b with
  | S fuel, Some b => if cs_has s b then span_loop fuel s (advance1 st) else st
  | _, _ => st
  end.

(** vm.go:350-352 *)
Fixpoint tree_close (n : nat) (id : Z) (st : mstate) : mstate :=
  match n with
  | O => st
  | S n =>
    match m_stk st with
    | SE (KTree id' _ _) _ :: _ => if (id' =? id)%Z then tree_close n id (snd (pop true st)) else st
    | _ => st
    end
  end.

(** vm.go:364-399 the loop of opMemoTree.  An iteration either increases [seen] or shortens the
    stack; [fuel] of (length stack + 1)^2 iterations suffices. *)
Fixpoint tree_pops (n : nat) (st : mstate) : mstate :=
  match n with O => st | S n => tree_pops n (snd (pop true st)) end.
Fixpoint tree_loop (fuel : nat) (seen accum : nat) (st : mstate) : mstate :=
  match fuel with
  | O => st
  | S fuel =>
    match nth_error (m_stk st) seen, nth_error (m_stk st) (S seen) with
    | Some (SE (KTree _ _ tcount) _), Some (SE (KTree nid npos ncount) _) =>
        let seen := S seen in
        let accum := accum + tcount in
        if accum <? ncount then tree_loop fuel seen accum st
        else
          let st := tree_pops (seen - 1) st in
          let (ent, st) := pop false st in
          let st := match ent with
                    | Some (SE (KTree _ epos _) ((_ :: _) as cs)) =>
                        match intrvl with
                        | None => add [new_dummy epos (mpos st - epos) cs] st
                        | Some _ => add cs st
                        end
                    | _ => st
                    end in
          match m_stk st with
          | SE (KTree _ _ _) ncapt :: rest =>
              let count := accum + ncount in
              let st := set_stk (SE (KTree nid npos count) ncapt :: rest) (m_base st) st in
              let mlen := mpos st - npos in
              tree_loop fuel 0 0 (memoize nid npos (Some mlen) count ncapt st)
          | _ => st
          end
    | _, _ => st
    end
  end.

(** vm.go:262-267 and 278-283: record a capture node if it overlaps the interval *)
Definition add_node (id : Z) (low high : nat) (cs : list capture) (st : mstate) : mstate :=
  if ivl_overlaps intrvl low high then
    let st := set_range (Nat.min (fst (m_range st)) low, Nat.max (snd (m_range st)) high) st in
    add [new_node id low (high - low) cs] st
  else st.

(** vm.go:442-445 the final return *)
Definition finish (success : bool) (st : mstate) : outcome :=
  match intrvl with
  | Some _ => Outcome success (mpos st)
                (Some (new_dummy (fst (m_range st)) (snd (m_range st) - fst (m_range st)) (m_base st))) (m_errs st)
  | None => Outcome success (mpos st) (Some (new_dummy 0 (mpos st) (m_base st))) (m_errs st)
  end.

(** vm.go:88-439: the effect of one decoded instruction; [next] is the address of the following one *)
Definition exec_d (i : insn) (next : nat) (st : mstate) : step_res :=
  match i with
  | IChar b =>
      let (in_, st) := peek st in
      match in_ with
      | Some c => if byte_eqb b c then Next (set_ip next (advance1 st)) else fail st
      | None => fail st
      end
  | IJump l => Next (set_ip l st)
  | IChoice l => Next (set_ip next (push (KBtrack l (mpos st)) st))
  | ICall l => Next (set_ip l (push (KRet next) st))
  | ICommit l => Next (set_ip l (snd (pop true st)))
  | IReturn =>
      match pop true st with
      | (Some (SE (KRet r) _), st) => Next (set_ip r st)
      | _ => Crash
      end
  | IFail => fail st
  | ISet s =>
      let (in_, st) := peek st in
      match in_ with
      | Some c => if cs_has s c then Next (set_ip next (advance1 st)) else fail st
      | None => fail st
      end
  | IAny n =>
      let (ok, src) := i_advance bufsz (m_src st) (N.to_nat (bN n)) in
      let st := set_src src st in
      if ok then Next (set_ip next st) else fail st
  | IPartialCommit l =>
      match m_stk st with
      | SE (KBtrack bip _) cs :: rest =>
          let (rest, base) := add_capt cs rest (m_base st) in
          Next (set_ip l (set_stk (SE (KBtrack bip (mpos st)) [] :: rest) base st))
      | _ => Crash
      end
  | ISpan s => Next (set_ip next (span_loop (S (List.length (i_data (m_src st)))) s st))
  | IBackCommit l =>
      match pop true st with
      | (Some (SE (KBtrack _ off) _), st) => Next (set_ip l (set_src (snd (i_seek bufsz (m_src st) off)) st))
      | _ => Crash
      end
  | IFailTwice => fail (snd (pop false st))
  | IEmpty op =>
      let b1 := i_peek_before (m_src st) in
      let (b2, st) := peek st in
      if (N.land (empty_op_context b1 b2) (bN op) =? 0)%N then fail st else Next (set_ip next st)
  | ITestChar b l =>
      let (in_, st) := peek st in
      match in_ with
      | Some c => if byte_eqb c b then Next (set_ip next (advance1 (push (KBtrack l (mpos st)) st)))
                  else Next (set_ip l st)
      | None => Next (set_ip l st)
      end
  | ITestCharNoChoice b l =>
      let (in_, st) := peek st in
      match in_ with
      | Some c => if byte_eqb c b then Next (set_ip next (advance1 st)) else Next (set_ip l st)
      | None => Next (set_ip l st)
      end
  | ITestSet s l =>
      let (in_, st) := peek st in
      match in_ with
      | Some c => if cs_has s c then Next (set_ip next (advance1 (push (KBtrack l (mpos st)) st)))
                  else Next (set_ip l st)
      | None => Next (set_ip l st)
      end
  | ITestSetNoChoice s l =>
      let (in_, st) := peek st in
      match in_ with
      | Some c => if cs_has s c then Next (set_ip next (advance1 st)) else Next (set_ip l st)
      | None => Next (set_ip l st)
      end
  | ITestAny n l =>
      let pos := mpos st in
      let (ok, src) := i_advance bufsz (m_src st) (N.to_nat (bN n)) in
      let st := set_src src st in
      if ok then Next (set_ip next (push (KBtrack l pos) st)) else Next (set_ip l st)
  | ICaptureBegin id => Next (set_ip next (push (KCapt id (mpos st)) st))
  | ICaptureLate back id => Next (set_ip next (push (KCapt id (mpos st - N.to_nat (bN back))) st))
  | ICaptureFull back id =>
      let back := N.to_nat (bN back) in
      let pos := mpos st in
      Next (set_ip next (add_node id (pos - back) pos [] st))
  | ICaptureEnd =>
      match pop false st with
      | (Some (SE (KCapt id pos) cs), st) => Next (set_ip next (add_node id pos (mpos st) cs st))
      | _ => Crash
      end
  | IEnd fail => Done (finish (negb fail) st) st
  | IMemoOpen l id =>
      let (ent, tbl) := t_get ops (m_tbl st) id (mpos st) in
      let st := set_tbl tbl st in
      match ent with
      | Some (MEntry None _ _) => fail st
      | Some (MEntry (Some len) _ cs) => Next (set_ip l (advance len (add cs st)))
      | None => Next (set_ip next (push (KMemo id (mpos st)) st))
      end
  | IMemoClose =>
      match pop true st with
      | (Some (SE (KMemo id pos) cs), st) => Next (set_ip next (memoize id pos (Some (mpos st - pos)) 1 cs st))
      | _ => Crash
      end
  | IMemoTreeOpen l id =>
      let (ent, tbl) := t_get ops (m_tbl st) id (mpos st) in
      let st := set_tbl tbl st in
      match ent with
      | Some (MEntry None _ _) => fail st
      | Some (MEntry (Some len) count cs) =>
          let st := push (KTree id (mpos st) count) st in
          Next (set_ip l (snd (peek (advance len (add cs st)))))
      | None => Next (set_ip next (push (KTree id (mpos st) 0) st))
      end
  | IMemoTreeClose id => Next (set_ip next (tree_close (List.length (m_stk st)) id st))
  | IMemoTreeInsert =>
      match m_stk st with
      | SE (KTree id pos count) cs :: rest =>
          let st := set_stk (SE (KTree id pos (S count)) cs :: rest) (m_base st) st in
          Next (set_ip next (memoize id pos (Some (mpos st - pos)) (S count) cs st))
      | _ => Crash
      end
  | IMemoTree =>
      let n := S (List.length (m_stk st)) in
      Next (set_ip next (tree_loop (n * n) 0 0 st))
  | ICheckBegin id flag => Next (set_ip next (push (KCheck id flag (mpos st)) st))
  | ICheckEnd k =>
      match pop true st with
      | (Some (SE (KCheck id flag pos) _), st) =>
          let (cs, r) := check k (m_cs st) (i_slice (m_src st) pos (mpos st)) (i_data (m_src st)) (mpos st) id flag in
          let st := set_cs cs st in
          match r with
          | None => fail st
          | Some n => Next (set_ip next (advance n st))
          end
      | _ => Crash
      end
  | IError m => Next (set_ip next (set_errs (m_errs st ++ [(mpos st, m)]) st))
  | ILabel _ | INop | IOpenCall _ => Crash                            (* "Invalid opcode" *)
  end.

(** vm.go:86-440 one iteration of the loop on bytecode *)
Definition vm_step (c : code) (st : mstate) : step_res :=
  match decode c (m_ip st) with
  | Some i => exec_d i (m_ip st + sz i) st
  | None => Crash
  end.

(** iteration of a step function; [None] is out of fuel *)
Inductive run_res := ROk (o : outcome) (st : mstate) | RCrash.
Fixpoint run (step : mstate -> step_res) (fuel : nat) (st : mstate) : option run_res :=
  match fuel with
  | O => None
  | S fuel =>
    match step st with
    | Next st => run step fuel st
    | Done o st => Some (ROk o st)
    | Crash => Some RCrash
    end
  end.

(** vm.go:31-73: the initial state *)
Definition init_state (data : list byte) (t : T) (cs : CS) : mstate :=
  MS 0 (i_new bufsz data) [] []
     (match intrvl with Some (l, h) => t_edit ops t l h (h - l) | None => t end)
     [] cs
     (match intrvl with Some r => r | None => (0, 0) end).

(** vm.go:31-52 Exec and ExecInterval *)
Definition vm_exec (fuel : nat) (c : code) (data : list byte) (t : T) (cs : CS) : option run_res :=
  run (vm_step c) fuel (init_state data t cs).

(** The same machine on a list of instructions: targets are label ids, a label or Nop is a no-op,
    and running off the end is the End instruction appended by Encode (code.go:216). *)
Definition sym_step (p : program) (st : mstate) : step_res :=
  match nth_error p (m_ip st) with
  | Some (ILabel _) | Some INop => Next (set_ip (S (m_ip st)) st)
  | Some i => exec_d (map_lbl (lbl_index p) i) (S (m_ip st)) st
  | None => if m_ip st =? List.length p then exec_d (IEnd false) (S (m_ip st)) st else Crash
  end.
End VM.

Arguments MS {T CS}. Arguments m_ip {T CS}. Arguments m_src {T CS}. Arguments m_stk {T CS}.
Arguments m_base {T CS}. Arguments m_tbl {T CS}. Arguments m_errs {T CS}. Arguments m_cs {T CS}.
Arguments m_range {T CS}. Arguments Next {T CS}. Arguments Done {T CS}. Arguments Crash {T CS}.
Arguments ROk {T CS}. Arguments RCrash {T CS}.
Arguments set_ip {T CS}. Arguments set_src {T CS}. Arguments set_stk {T CS}. Arguments set_tbl {T CS}.
Arguments set_errs {T CS}. Arguments set_cs {T CS}. Arguments set_range {T CS}.
Arguments push {T CS}. Arguments add {T CS}. Arguments pop {T CS}. Arguments mpos {T CS}.
Arguments advance1 bufsz {T CS}. Arguments advance bufsz {T CS}. Arguments peek {T CS}.
Arguments memoize {T} ops {CS}. Arguments do_fail bufsz {T} ops {CS}. Arguments fail bufsz {T} ops {CS}.
Arguments span_loop bufsz {T CS}. Arguments tree_close {T CS}. Arguments tree_pops {T CS}.
Arguments tree_loop {T} ops {CS}. Arguments add_node {T CS}. Arguments finish {T CS}.
Arguments exec_d bufsz {T} ops {CS}. Arguments vm_step bufsz {T} ops {CS}. Arguments run {T CS}.
Arguments init_state bufsz {T} ops {CS}. Arguments vm_exec bufsz {T} ops {CS}.
Arguments sym_step bufsz {T} ops {CS}.
