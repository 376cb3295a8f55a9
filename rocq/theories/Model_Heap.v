(** Model of vm/stack.go and vm/vm.go with Go's slices: the machine of Model_VM, whose lists of
    captures are here slices of arrays in a heap, so that two slices can share an array and an append
    can write into spare capacity that another slice can see. *)
From Coq Require Import ZArith.
From Verif Require Import Base Model_Charset Model_Isa Model_Capture Model_Input Model_Code Model_VM Model_Interval Model_Table.
Local Open Scope nat_scope.

(** a slice []*Capture: its array and its length.  The slices of the code all start at the beginning
    of their array.  A slice of length 0 is nil. *)
Record slice := Slice { sl_arr : nat; sl_len : nat }.
Definition nil_slice : slice := Slice 0 0.

(** capture.go:13-21 Capture.  As in Model_Capture the start is absolute; a capture object never
    changes after it was made, so the pointer to it is the object itself. *)
Inductive hcap := HCap (dummy : bool) (id : Z) (start len : nat) (children : slice).
Definition no_cap : hcap := HCap false 0 0 0 nil_slice.

(** the arrays; the length of an array is its capacity *)
Definition heap := list (list hcap).
Definition arr (h : heap) (a : nat) : list hcap := nth a h [].
Definition cells (h : heap) (s : slice) : list hcap := firstn (sl_len s) (arr h (sl_arr s)).
Definition capacity (h : heap) (s : slice) : nat := if sl_len s =? 0 then 0 else List.length (arr h (sl_arr s)).
Fixpoint set_nth {A} (n : nat) (x : A) (l : list A) : list A :=
  match l, n with
  | [], _ => []
  | _ :: l, O => x :: l
  | y :: l, S n => y :: set_nth n x l
  end.
Definition alloc (h : heap) (cs : list hcap) (cap : nat) : heap * slice :=
  (h ++ [cs ++ repeat no_cap (cap - List.length cs)], Slice (List.length h) (List.length cs)).

(** the tree that a user sees through a capture; [None] is out of fuel (or a cycle) *)
Fixpoint all_some {A} (l : list (option A)) : option (list A) :=
  match l with
  | [] => Some []
  | None :: _ => None
  | Some x :: l => option_map (cons x) (all_some l)
  end.
Fixpoint view (fuel : nat) (h : heap) (c : hcap) : option capture :=
  match fuel with
  | O => None
  | S fuel => match c with HCap d id st ln ch => option_map (Capture d id st ln) (all_some (map (view fuel h) (cells h ch))) end
  end.

(** the growth policy of append: capacity of the new array, from the old capacity and the length
    needed (runtime.growslice); a policy that gives too little is rounded up *)
Definition policy := nat -> nat -> nat.

(** the policy of the Go runtime for slices of pointers of up to 256 elements: twice the old capacity,
    or what is needed if that is more, rounded up to a size class of the allocator (here up to 256
    bytes) *)
Definition size_class (n : nat) : nat :=
  if n <=? 4 then n else if n <=? 32 then 2 * ((n + 1) / 2) else n.
Definition go_policy : policy := fun old need => size_class (if 2 * old <? need then need else 2 * old).

(** append(s, t...) *)
Definition append (grow : policy) (h : heap) (s t : slice) : heap * slice :=
  let need := sl_len s + sl_len t in
  if sl_len t =? 0 then (h, s)
  else if need <=? capacity h s then
    (set_nth (sl_arr s) (cells h s ++ cells h t ++ skipn need (arr h (sl_arr s))) h, Slice (sl_arr s) need)
  else alloc h (cells h s ++ cells h t) (Nat.max need (grow (capacity h s) need)).

(** stack.go:44-54 stackEntry *)
Record hsentry := HSE { hs_kind : skind; hs_capt : slice }.

(** what Get returns, as in Model_VM *)
Record hmentry := HMEntry { hme_len : option nat; hme_count : nat; hme_capt : slice }.
Record htable_ops (T : Type) := HTableOps {
  ht_get : T -> Z -> nat -> option hmentry * T;
  ht_put : T -> Z -> nat -> option nat -> nat -> nat -> slice -> T
}.
Arguments ht_get {T}. Arguments ht_put {T}.

(** memo/none.go:4-15 NoneTable *)
Definition hnone_table : htable_ops unit := HTableOps unit (fun t _ _ => (None, t)) (fun _ _ _ _ _ _ _ => tt).

(** memo/entry.go:12-18 and memo/tree.go:12-49, without edits: as in Model_Table, but the entry keeps
    the slice it was given (tree.go:44) and Captures returns that slice (entry.go:41-43) *)
Record hentry := HEntry { he_len : option nat; he_examined : nat; he_count : nat; he_capt : slice; he_at : nat }.
Definition httable : Type := itree hentry.
Definition htt_new : httable := it_empty.
Definition htt_get (t : httable) (id : Z) (pos : nat) : option hmentry * httable :=
  let (t, v) := it_find t id (Z.of_nat pos) in
  (option_map (fun e => HMEntry (he_len e) (he_count e) (he_capt e)) v, t).
Definition htt_put (threshold : Z) (t : httable) (id : Z) (start : nat) (len : option nat) (examined count : nat) (capt : slice) : httable :=
  if (Z.of_nat examined <? threshold)%Z || match len with Some 0 => true | _ => false end then t
  else
    let examined := Nat.max examined (match len with Some l => l | None => 0 end) in
    fst (it_add t id (Z.of_nat start) (Z.of_nat (start + examined)) (HEntry len examined count capt start)).
Definition htree_table (threshold : Z) : htable_ops httable := HTableOps httable htt_get (htt_put threshold).

(** what Exec returns *)
Inductive houtcome := HOutcome (ok : bool) (pos : nat) (capt : option hcap) (errs : list (nat * string)).

Section VM.
Variable grow : policy.
Variable bufsz : nat.
Variable T : Type.
Variable ops : htable_ops T.
Variable CS : Type.
Variable check : nat -> CS -> list byte -> list byte -> nat -> Z -> Z -> CS * option nat.
Variable intrvl : option (nat * nat).

Record hstate := HS {
  h_ip : nat; h_src : input; h_stk : list hsentry; h_base : slice; h_heap : heap;
  h_tbl : T; h_errs : list (nat * string); h_cs : CS; h_range : nat * nat }.
Inductive hres := HNext (st : hstate) | HDone (o : houtcome) (st : hstate) | HCrash.

Definition hset_ip ip st := HS ip (h_src st) (h_stk st) (h_base st) (h_heap st) (h_tbl st) (h_errs st) (h_cs st) (h_range st).
Definition hset_src s st := HS (h_ip st) s (h_stk st) (h_base st) (h_heap st) (h_tbl st) (h_errs st) (h_cs st) (h_range st).
Definition hset_stk k b h st := HS (h_ip st) (h_src st) k b h (h_tbl st) (h_errs st) (h_cs st) (h_range st).
Definition hset_tbl t st := HS (h_ip st) (h_src st) (h_stk st) (h_base st) (h_heap st) t (h_errs st) (h_cs st) (h_range st).
Definition hset_errs e st := HS (h_ip st) (h_src st) (h_stk st) (h_base st) (h_heap st) (h_tbl st) e (h_cs st) (h_range st).
Definition hset_cs c st := HS (h_ip st) (h_src st) (h_stk st) (h_base st) (h_heap st) (h_tbl st) (h_errs st) c (h_range st).
Definition hset_range r st := HS (h_ip st) (h_src st) (h_stk st) (h_base st) (h_heap st) (h_tbl st) (h_errs st) (h_cs st) r.

Definition hpush (k : skind) (st : hstate) : hstate := hset_stk (HSE k nil_slice :: h_stk st) (h_base st) (h_heap st) st.
Definition hpos (st : hstate) : nat := i_pos (h_src st).

(** stack.go:12-18 and 56-65 addCapt *)
Definition hadd (t : slice) (st : hstate) : hstate :=
  match h_stk st with
  | [] => let (h, b) := append grow (h_heap st) (h_base st) t in hset_stk [] b h st
  | e :: stk =>
      if sl_len t =? 0 then st
      else if sl_len (hs_capt e) =? 0 then hset_stk (HSE (hs_kind e) t :: stk) (h_base st) (h_heap st) st
      else let (h, s) := append grow (h_heap st) (hs_capt e) t in hset_stk (HSE (hs_kind e) s :: stk) (h_base st) h st
  end.
(** st.addCapt(c): the call makes an array of one element *)
Definition hadd1 (c : hcap) (st : hstate) : hstate :=
  let (h, s) := alloc (h_heap st) [c] 1 in hadd s (hset_stk (h_stk st) (h_base st) h st).

(** stack.go:100-114 pop *)
Definition hpop (propagate : bool) (st : hstate) : option hsentry * hstate :=
  match h_stk st with
  | [] => (None, st)
  | e :: stk =>
      let st := hset_stk stk (h_base st) (h_heap st) st in
      (Some e, if propagate then hadd (hs_capt e) st else st)
  end.

Definition hadvance (n : nat) (st : hstate) : hstate := hset_src (snd (i_advance bufsz (h_src st) n)) st.
Definition hpeek (st : hstate) : option byte * hstate :=
  let (b, s) := i_peek (h_src st) in (b, hset_src s st).

(** vm.go:75-81 memoize *)
Definition hmemoize (id : Z) (pos : nat) (mlen : option nat) (count : nat) (capt : slice) (st : hstate) : hstate :=
  let capt := match intrvl with Some _ => nil_slice | None => capt end in
  let mexam := Nat.max (i_furthest (h_src st)) (hpos st) - pos + 1 in
  hset_tbl (ht_put ops (h_tbl st) id pos mlen mexam count capt) st.

(** vm.go:447-469 the fail label *)
Fixpoint hdo_fail (stk : list hsentry) (st : hstate) : hres :=
  match stk with
  | [] => HDone (HOutcome false (hpos st) None (h_errs st)) (hset_stk [] (h_base st) (h_heap st) st)
  | e :: stk =>
    match hs_kind e with
    | KBtrack ip off =>
        HNext (hset_ip ip (hset_src (snd (i_seek bufsz (h_src st) off)) (hset_stk stk (h_base st) (h_heap st) st)))
    | KMemo id pos => hdo_fail stk (hmemoize id pos None 0 nil_slice st)
    | KTree _ _ _ => HNext (hset_stk stk (h_base st) (h_heap st) st)
    | KRet _ | KCapt _ _ | KCheck _ _ _ => hdo_fail stk st
    end
  end.
Definition hfail (st : hstate) : hres := hdo_fail (h_stk st) st.

(** vm.go:151-158 the loop of opSpan *)
Fixpoint hspan_loop (fuel : nat) (s : cset) (st : hstate) : hstate :=
  let (b, st) := hpeek st in
  match fuel, b with
  | S fuel, Some b => if cs_has s b then hspan_loop fuel s (hadvance 1 st) else st
  | _, _ => st
  end.

(** vm.go:350-352 *)
Fixpoint htree_close (n : nat) (id : Z) (st : hstate) : hstate :=
  match n with
  | O => st
  | S n =>
    match h_stk st with
    | HSE (KTree id' _ _) _ :: _ => if (id' =? id)%Z then htree_close n id (snd (hpop true st)) else st
    | _ => st
    end
  end.

(** vm.go:364-399 the loop of opMemoTree *)
Fixpoint htree_pops (n : nat) (st : hstate) : hstate :=
  match n with O => st | S n => htree_pops n (snd (hpop true st)) end.
Fixpoint htree_loop (fuel : nat) (seen accum : nat) (st : hstate) : hstate :=
  match fuel with
  | O => st
  | S fuel =>
    match nth_error (h_stk st) seen, nth_error (h_stk st) (S seen) with
    | Some (HSE (KTree _ _ tcount) _), Some (HSE (KTree nid npos ncount) _) =>
        let seen := S seen in
        let accum := accum + tcount in
        if accum <? ncount then htree_loop fuel seen accum st
        else
          let st := htree_pops (seen - 1) st in
          let (ent, st) := hpop false st in
          let st := match ent with
                    | Some (HSE (KTree _ epos _) cs) =>
                        if sl_len cs =? 0 then st
                        else match intrvl with
                             | None => hadd1 (HCap true 0 epos (hpos st - epos) cs) st
                             | Some _ => hadd cs st
                             end
                    | _ => st
                    end in
          match h_stk st with
          | HSE (KTree _ _ _) ncapt :: rest =>
              let count := accum + ncount in
              let st := hset_stk (HSE (KTree nid npos count) ncapt :: rest) (h_base st) (h_heap st) st in
              let mlen := hpos st - npos in
              htree_loop fuel 0 0 (hmemoize nid npos (Some mlen) count ncapt st)
          | _ => st
          end
    | _, _ => st
    end
  end.

(** vm.go:262-267 and 278-283 *)
Definition hadd_node (id : Z) (low high : nat) (cs : slice) (st : hstate) : hstate :=
  if ivl_overlaps intrvl low high then
    let st := hset_range (Nat.min (fst (h_range st)) low, Nat.max (snd (h_range st)) high) st in
    hadd1 (HCap false id low (high - low) cs) st
  else st.

(** vm.go:442-445 the final return *)
Definition hfinish (success : bool) (st : hstate) : houtcome :=
  match intrvl with
  | Some _ => HOutcome success (hpos st)
                (Some (HCap true 0 (fst (h_range st)) (snd (h_range st) - fst (h_range st)) (h_base st))) (h_errs st)
  | None => HOutcome success (hpos st) (Some (HCap true 0 0 (hpos st) (h_base st))) (h_errs st)
  end.

(** vm.go:88-439: the effect of one decoded instruction, as exec_d of Model_VM *)
Definition hexec_d (i : insn) (next : nat) (st : hstate) : hres :=
  match i with
  | IChar b =>
      let (in_, st) := hpeek st in
      match in_ with
      | Some c => if byte_eqb b c then HNext (hset_ip next (hadvance 1 st)) else hfail st
      | None => hfail st
      end
  | IJump l => HNext (hset_ip l st)
  | IChoice l => HNext (hset_ip next (hpush (KBtrack l (hpos st)) st))
  | ICall l => HNext (hset_ip l (hpush (KRet next) st))
  | ICommit l => HNext (hset_ip l (snd (hpop true st)))
  | IReturn =>
      match hpop true st with
      | (Some (HSE (KRet r) _), st) => HNext (hset_ip r st)
      | _ => HCrash
      end
  | IFail => hfail st
  | ISet s =>
      let (in_, st) := hpeek st in
      match in_ with
      | Some c => if cs_has s c then HNext (hset_ip next (hadvance 1 st)) else hfail st
      | None => hfail st
      end
  | IAny n =>
      let (ok, src) := i_advance bufsz (h_src st) (N.to_nat (bN n)) in
      let st := hset_src src st in
      if ok then HNext (hset_ip next st) else hfail st
  | IPartialCommit l =>
      (* vm.go:142-150: propCapt adds the captures to the entry below, then the entry's are dropped *)
      match h_stk st with
      | HSE (KBtrack bip _) cs :: rest =>
          let st' := hadd cs (hset_stk rest (h_base st) (h_heap st) st) in
          HNext (hset_ip l (hset_stk (HSE (KBtrack bip (hpos st)) nil_slice :: h_stk st') (h_base st') (h_heap st') st'))
      | _ => HCrash
      end
  | ISpan s => HNext (hset_ip next (hspan_loop (S (List.length (i_data (h_src st)))) s st))
  | IBackCommit l =>
      match hpop true st with
      | (Some (HSE (KBtrack _ off) _), st) => HNext (hset_ip l (hset_src (snd (i_seek bufsz (h_src st) off)) st))
      | _ => HCrash
      end
  | IFailTwice => hfail (snd (hpop false st))
  | IEmpty op =>
      let b1 := i_peek_before (h_src st) in
      let (b2, st) := hpeek st in
      if (N.land (empty_op_context b1 b2) (bN op) =? 0)%N then hfail st else HNext (hset_ip next st)
  | ITestChar b l =>
      let (in_, st) := hpeek st in
      match in_ with
      | Some c => if byte_eqb c b then HNext (hset_ip next (hadvance 1 (hpush (KBtrack l (hpos st)) st)))
                  else HNext (hset_ip l st)
      | None => HNext (hset_ip l st)
      end
  | ITestCharNoChoice b l =>
      let (in_, st) := hpeek st in
      match in_ with
      | Some c => if byte_eqb c b then HNext (hset_ip next (hadvance 1 st)) else HNext (hset_ip l st)
      | None => HNext (hset_ip l st)
      end
  | ITestSet s l =>
      let (in_, st) := hpeek st in
      match in_ with
      | Some c => if cs_has s c then HNext (hset_ip next (hadvance 1 (hpush (KBtrack l (hpos st)) st)))
                  else HNext (hset_ip l st)
      | None => HNext (hset_ip l st)
      end
  | ITestSetNoChoice s l =>
      let (in_, st) := hpeek st in
      match in_ with
      | Some c => if cs_has s c then HNext (hset_ip next (hadvance 1 st)) else HNext (hset_ip l st)
      | None => HNext (hset_ip l st)
      end
  | ITestAny n l =>
      let pos := hpos st in
      let (ok, src) := i_advance bufsz (h_src st) (N.to_nat (bN n)) in
      let st := hset_src src st in
      if ok then HNext (hset_ip next (hpush (KBtrack l pos) st)) else HNext (hset_ip l st)
  | ICaptureBegin id => HNext (hset_ip next (hpush (KCapt id (hpos st)) st))
  | ICaptureLate back id => HNext (hset_ip next (hpush (KCapt id (hpos st - N.to_nat (bN back))) st))
  | ICaptureFull back id =>
      let back := N.to_nat (bN back) in
      let pos := hpos st in
      HNext (hset_ip next (hadd_node id (pos - back) pos nil_slice st))
  | ICaptureEnd =>
      match hpop false st with
      | (Some (HSE (KCapt id pos) cs), st) => HNext (hset_ip next (hadd_node id pos (hpos st) cs st))
      | _ => HCrash
      end
  | IEnd fail => HDone (hfinish (negb fail) st) st
  | IMemoOpen l id =>
      let (ent, tbl) := ht_get ops (h_tbl st) id (hpos st) in
      let st := hset_tbl tbl st in
      match ent with
      | Some (HMEntry None _ _) => hfail st
      | Some (HMEntry (Some len) _ cs) => HNext (hset_ip l (hadvance len (hadd cs st)))
      | None => HNext (hset_ip next (hpush (KMemo id (hpos st)) st))
      end
  | IMemoClose =>
      match hpop true st with
      | (Some (HSE (KMemo id pos) cs), st) => HNext (hset_ip next (hmemoize id pos (Some (hpos st - pos)) 1 cs st))
      | _ => HCrash
      end
  | IMemoTreeOpen l id =>
      let (ent, tbl) := ht_get ops (h_tbl st) id (hpos st) in
      let st := hset_tbl tbl st in
      match ent with
      | Some (HMEntry None _ _) => hfail st
      | Some (HMEntry (Some len) count cs) =>
          let st := hpush (KTree id (hpos st) count) st in
          HNext (hset_ip l (snd (hpeek (hadvance len (hadd cs st)))))
      | None => HNext (hset_ip next (hpush (KTree id (hpos st) 0) st))
      end
  | IMemoTreeClose id => HNext (hset_ip next (htree_close (List.length (h_stk st)) id st))
  | IMemoTreeInsert =>
      match h_stk st with
      | HSE (KTree id pos count) cs :: rest =>
          let st := hset_stk (HSE (KTree id pos (S count)) cs :: rest) (h_base st) (h_heap st) st in
          HNext (hset_ip next (hmemoize id pos (Some (hpos st - pos)) (S count) cs st))
      | _ => HCrash
      end
  | IMemoTree =>
      let n := S (List.length (h_stk st)) in
      HNext (hset_ip next (htree_loop (n * n) 0 0 st))
  | ICheckBegin id flag => HNext (hset_ip next (hpush (KCheck id flag (hpos st)) st))
  | ICheckEnd k =>
      match hpop true st with
      | (Some (HSE (KCheck id flag pos) _), st) =>
          let (cs, r) := check k (h_cs st) (i_slice (h_src st) pos (hpos st)) (i_data (h_src st)) (hpos st) id flag in
          let st := hset_cs cs st in
          match r with
          | None => hfail st
          | Some n => HNext (hset_ip next (hadvance n st))
          end
      | _ => HCrash
      end
  | IError m => HNext (hset_ip next (hset_errs (h_errs st ++ [(hpos st, m)]) st))
  | ILabel _ | INop | IOpenCall _ => HCrash
  end.

(** vm.go:86-440 *)
Definition hvm_step (c : code) (st : hstate) : hres :=
  match decode c (h_ip st) with
  | Some i => hexec_d i (h_ip st + sz i) st
  | None => HCrash
  end.
Inductive hrun_res := HROk (o : houtcome) (st : hstate) | HRCrash.
Fixpoint hrun (step : hstate -> hres) (fuel : nat) (st : hstate) : option hrun_res :=
  match fuel with
  | O => None
  | S fuel =>
    match step st with
    | HNext st => hrun step fuel st
    | HDone o st => Some (HROk o st)
    | HCrash => Some HRCrash
    end
  end.

(** vm.go:31-73: the initial state, with the heap left by earlier parses *)
Definition hinit_state (data : list byte) (h : heap) (t : T) (cs : CS) : hstate :=
  HS 0 (i_new bufsz data) [] nil_slice h t [] cs (match intrvl with Some r => r | None => (0, 0) end).
(** vm.go:31-52 Exec; ExecInterval for a table that ignores edits *)
Definition hvm_exec (fuel : nat) (c : code) (data : list byte) (h : heap) (t : T) (cs : CS) : option hrun_res :=
  hrun (hvm_step c) fuel (hinit_state data h t cs).
End VM.

Arguments HS {T CS}. Arguments h_ip {T CS}. Arguments h_src {T CS}. Arguments h_stk {T CS}. Arguments h_base {T CS}.
Arguments h_heap {T CS}. Arguments h_tbl {T CS}. Arguments h_errs {T CS}. Arguments h_cs {T CS}. Arguments h_range {T CS}.
Arguments HNext {T CS}. Arguments HDone {T CS}. Arguments HCrash {T CS}. Arguments HROk {T CS}. Arguments HRCrash {T CS}.
Arguments hset_ip {T CS}. Arguments hset_src {T CS}. Arguments hset_stk {T CS}. Arguments hset_tbl {T CS}.
Arguments hset_errs {T CS}. Arguments hset_cs {T CS}. Arguments hset_range {T CS}.
Arguments hpush {T CS}. Arguments hpos {T CS}. Arguments hadd grow {T CS}. Arguments hadd1 grow {T CS}. Arguments hpop grow {T CS}.
Arguments hadvance bufsz {T CS}. Arguments hpeek {T CS}. Arguments hmemoize {T} ops {CS}.
Arguments hdo_fail bufsz {T} ops {CS}. Arguments hfail bufsz {T} ops {CS}. Arguments hspan_loop bufsz {T CS}.
Arguments htree_close grow {T CS}. Arguments htree_pops grow {T CS}. Arguments htree_loop grow {T} ops {CS}.
Arguments hadd_node grow {T CS}. Arguments hfinish {T CS}.
Arguments hexec_d grow bufsz {T} ops {CS}. Arguments hvm_step grow bufsz {T} ops {CS}. Arguments hrun {T CS}.
Arguments hinit_state bufsz {T CS}. Arguments hvm_exec grow bufsz {T} ops {CS}.
