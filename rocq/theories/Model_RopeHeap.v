(** Model of input/linerope with the arrays that slices point to.

    Model_Rope treats the values of leaves as byte strings.  In the code they are slices: New takes parts
    of the slice that the user gave it, Insert and Remove write into the array of a leaf if it has spare
    capacity, and Value and SliceLC return parts of these arrays without copying.  This file models the
    methods over a heap of arrays; the structure of the tree is a value as in Model_Rope.

    [None] is a panic.  An index between the length and the capacity of a slice does not panic, as in the
    code.  Remove with start > end is a panic here; in the code it can also grow the slice. *)
From Coq Require Import ZArith.
From Verif Require Import Base Model_Rope.
Local Open Scope nat_scope.
Local Notation "x <- a ; b" := (obind a (fun x => b)) (at level 61, a at next level, right associativity).

(* ---------- slices of bytes ---------- *)
(** the arrays; an address is a number *)
Definition bheap := list (list byte).
(** a slice: the array, where it begins, its length and capacity *)
Record bslice := BS { bs_arr : nat; bs_off : nat; bs_len : nat; bs_cap : nat }.
Definition barr (h : bheap) (a : nat) : list byte := nth a h [].
(** the bytes of a slice *)
Definition bread (h : bheap) (s : bslice) : list byte := firstn (bs_len s) (skipn (bs_off s) (barr h (bs_arr s))).
(** s[a:b] *)
Definition bcut (s : bslice) (a b : nat) : option bslice :=
  if (a <=? b) && (b <=? bs_cap s) then Some (BS (bs_arr s) (bs_off s + a) (b - a) (bs_cap s - a)) else None.
(** s[a:b:b] *)
Definition bcut3 (s : bslice) (a b : nat) : option bslice :=
  if (a <=? b) && (b <=? bs_cap s) then Some (BS (bs_arr s) (bs_off s + a) (b - a) (b - a)) else None.
Fixpoint bset (h : bheap) (a : nat) (x : list byte) : bheap :=
  match h, a with
  | [], _ => []
  | _ :: h, O => x :: h
  | y :: h, S a => y :: bset h a x
  end.
(** write [x] into array [a] from [off] on *)
Definition bput (h : bheap) (a off : nat) (x : list byte) : bheap :=
  bset h a (firstn off (barr h a) ++ x ++ skipn (off + List.length x) (barr h a)).
(** make([]byte, len, cap) *)
Definition bmake (h : bheap) (len cap : nat) : option (bheap * bslice) :=
  if len <=? cap then Some (h ++ [repeat x00 cap], BS (List.length h) 0 len cap) else None.
(** copy(dst, src), which may overlap *)
Definition bcopy (h : bheap) (dst src : bslice) : bheap := bput h (bs_arr dst) (bs_off dst) (firstn (bs_len dst) (bread h src)).

(** rope.go:475-487 insert *)
Definition hs_insert (h : bheap) (s : bslice) (k : nat) (vs : bslice) : option (bheap * bslice) :=
  let n := bs_len s + bs_len vs in
  if n <=? bs_cap s then
    s2 <- bcut s 0 n;
    d <- bcut s2 (k + bs_len vs) n; x <- bcut s k (bs_len s);
    let h := bcopy h d x in
    d <- bcut s2 k n;
    Some (bcopy h d vs, s2)
  else
    hs <- bmake h n n;
    let (h, s2) := hs : bheap * bslice in
    x <- bcut s 0 k; let h := bcopy h s2 x in
    d <- bcut s2 k n; let h := bcopy h d vs in
    d <- bcut s2 (k + bs_len vs) n; x <- bcut s k (bs_len s);
    Some (bcopy h d x, s2).
(** rope.go:489-494 concat; both appends have room *)
Definition hs_concat (h : bheap) (a b : bslice) : option (bheap * bslice) :=
  let n := bs_len a + bs_len b in
  hs <- bmake h 0 n;
  let (h, c) := hs : bheap * bslice in
  c1 <- bcut c 0 (bs_len a); let h := bcopy h c1 a in
  c2 <- bcut c (bs_len a) n; let h := bcopy h c2 b in
  c <- bcut c 0 n; Some (h, c).
(** rope.go:496-505 remove *)
Definition hs_remove (h : bheap) (s : bslice) (start en : nat) : option (bheap * bslice) :=
  if negb ((start <=? en) && (en <=? bs_len s)) then None
  else if bs_len s =? bs_cap s then
    hs <- bmake h (bs_len s - (en - start)) (bs_cap s);
    let (h, ns) := hs : bheap * bslice in
    x <- bcut s 0 start; let h := bcopy h ns x in
    d <- bcut ns start (bs_len ns); x <- bcut s en (bs_len s);
    Some (bcopy h d x, ns)
  else
    x <- bcut s en (bs_len s);
    d <- bcut s start (start + bs_len x);
    r <- bcut s 0 (start + bs_len x);
    Some (bcopy h d x, r).

(* ---------- ropes ---------- *)
(** rope.go:29-46 Node *)
Inductive hrope :=
| HLeaf (o : opts) (value : bslice) (length : nat) (llength : loc)
| HNode (o : opts) (left right : hrope) (length : nat) (llength : loc).
Definition h_opts (r : hrope) : opts := match r with HLeaf o _ _ _ | HNode o _ _ _ _ => o end.
Definition h_len (r : hrope) : nat := match r with HLeaf _ _ n _ | HNode _ _ _ n _ => n end.
Definition h_llen (r : hrope) : loc := match r with HLeaf _ _ _ l | HNode _ _ _ _ l => l end.

(** rope.go:172-179 Value *)
Fixpoint h_value (h : bheap) (r : hrope) : option (bheap * bslice) :=
  match r with
  | HLeaf _ s _ _ => Some (h, s)
  | HNode _ l r _ _ =>
      x <- h_value h l; let (h, a) := x : bheap * bslice in
      x <- h_value h r; let (h, b) := x : bheap * bslice in hs_concat h a b
  end.
(** a leaf with the value [s] *)
Definition h_leaf (h : bheap) (o : opts) (s : bslice) : hrope := HLeaf o s (bs_len s) (llen (bread h s) (o_sep o)).
(** rope.go:157-166 adjust, case tNode *)
Definition h_adjust_node (h : bheap) (r : hrope) : option (bheap * hrope) :=
  if h_len r <? o_joinlen (h_opts r)
  then x <- h_value h r; let (h, s) := x : bheap * bslice in Some (h, h_leaf h (h_opts r) s)
  else Some (h, r).
(** rope.go:361-372 join *)
Definition h_join (h : bheap) (l r : hrope) : option (bheap * hrope) :=
  h_adjust_node h (HNode (h_opts l) l r (h_len l + h_len r) (addlocs (h_llen l) (h_llen r))).
(** rope.go:117-121 *)
Fixpoint h_join_last (h : bheap) (nodes : list hrope) : option (bheap * list hrope) :=
  match nodes with
  | [a; b] => x <- h_join h a b; let (h, n) := x : bheap * hrope in Some (h, [n])
  | a :: nodes => x <- h_join_last h nodes; let (h, ns) := x : bheap * list hrope in Some (h, a :: ns)
  | [] => None
  end.
(** rope.go:123-126 *)
Fixpoint h_join_pairs (h : bheap) (nodes : list hrope) : option (bheap * list hrope) :=
  match nodes with
  | [] => Some (h, [])
  | a :: b :: nodes =>
      x <- h_join h a b; let (h, n) := x : bheap * hrope in
      x <- h_join_pairs h nodes; let (h, ns) := x : bheap * list hrope in Some (h, n :: ns)
  | [_] => None
  end.
(** rope.go:113-128 buildTree *)
Fixpoint h_build_tree (fuel : nat) (h : bheap) (nodes : list hrope) : option (bheap * hrope) :=
  match nodes with
  | [n] => Some (h, n)
  | _ =>
      match fuel with
      | O => None
      | S fuel =>
          x <- (if Nat.odd (List.length nodes) then h_join_last h nodes else Some (h, nodes)); let (h, nodes) := x : bheap * list hrope in
          x <- h_join_pairs h nodes; let (h, ns) := x : bheap * list hrope in h_build_tree fuel h ns
      end
  end.
(** rope.go:85-97: the chunks from [j] on *)
Fixpoint h_chunks (n sz : nat) (s : bslice) (j : nat) : option (list bslice) :=
  match n with O => Some [] | S n => c <- bcut3 s j (j + sz); cs <- h_chunks n sz s (j + sz); Some (c :: cs) end.
(** rope.go:56-110 NewWithOpts *)
Definition h_new (h : bheap) (o : opts) (s : bslice) : option (bheap * hrope) :=
  match o_split o with
  | O => None
  | sz =>
      let nchunks := bs_len s / sz in
      cs <- h_chunks nchunks sz s 0; c <- bcut3 s (nchunks * sz) (bs_len s);
      let nodes := map (h_leaf h o) (cs ++ [c]) in
      h_build_tree (List.length nodes) h nodes
  end.
(** rope.go:145-167 adjust *)
Definition h_adjust (h : bheap) (r : hrope) : option (bheap * hrope) :=
  match r with
  | HLeaf o s n _ =>
      if o_split o <? n
      then
        let divide := n / 2 in
        a <- bcut s 0 divide; b <- bcut s divide (bs_len s);
        x <- h_new h o a; let (h, l) := x : bheap * hrope in
        x <- h_new h o b; let (h, r) := x : bheap * hrope in
        Some (h, HNode o l r (h_len l + h_len r) (addlocs (h_llen l) (h_llen r)))
      else Some (h, r)
  | _ => h_adjust_node h r
  end.
(** rope.go:182-206 Remove *)
Fixpoint h_remove (h : bheap) (r : hrope) (start en : nat) : option (bheap * hrope) :=
  match r with
  | HLeaf o s _ _ => x <- hs_remove h s start en; let (h, s) := x : bheap * bslice in h_adjust h (h_leaf h o s)
  | HNode o l r _ _ =>
      let ll := h_len l in
      let lstart := Nat.min start ll in
      let lend := Nat.min en ll in
      let rl := h_len r in
      let rstart := Nat.min (start - ll) rl in
      let rend := Nat.min (en - ll) rl in
      x <- (if lstart <? ll then h_remove h l lstart lend else Some (h, l)); let (h, l) := x : bheap * hrope in
      x <- (if 0 <? rend then h_remove h r rstart rend else Some (h, r)); let (h, r) := x : bheap * hrope in
      h_adjust h (HNode o l r (h_len l + h_len r) (addlocs (h_llen l) (h_llen r)))
  end.
(** rope.go:209-227 Insert *)
Fixpoint h_insert (h : bheap) (r : hrope) (pos : nat) (v : bslice) : option (bheap * hrope) :=
  match r with
  | HLeaf o s _ _ => x <- hs_insert h s pos v; let (h, s) := x : bheap * bslice in h_adjust h (h_leaf h o s)
  | HNode o l r _ _ =>
      if pos <? h_len l then
        x <- h_insert h l pos v; let (h, l) := x : bheap * hrope in
        h_adjust h (HNode o l r (h_len l + h_len r) (addlocs (h_llen l) (h_llen r)))
      else
        x <- h_insert h r (pos - h_len l) v; let (h, r) := x : bheap * hrope in
        h_adjust h (HNode o l r (h_len l + h_len r) (addlocs (h_llen l) (h_llen r)))
  end.
(** rope.go:230-260 slice; []byte{} *)
Fixpoint h_slice (h : bheap) (r : hrope) (start en : nat) : option (bheap * bslice) :=
  if en <=? start then bmake h 0 0
  else
    match r with
    | HLeaf _ s _ _ => x <- bcut s start en; Some (h, x)
    | HNode _ l r _ _ =>
        let ll := h_len l in
        let lstart := Nat.min start ll in
        let lend := Nat.min en ll in
        let rl := h_len r in
        let rstart := Nat.min (start - ll) rl in
        let rend := Nat.min (en - ll) rl in
        if negb (lstart =? lend) then
          if negb (rstart =? rend) then
            x <- h_slice h l lstart lend; let (h, a) := x : bheap * bslice in
            x <- h_slice h r rstart rend; let (h, b) := x : bheap * bslice in hs_concat h a b
          else h_slice h l lstart lend
        else
          if negb (rstart =? rend) then h_slice h r rstart rend
          else bmake h 0 0
    end.
(** line.go:95-99 *)
Definition h_sliceloc (h : bheap) (s : bslice) (sep : list byte) (start en : loc) : option bslice :=
  let soff := (index_n (bread h s) sep (l_line start) + Z.of_nat (List.length sep) + l_col start)%Z in
  let eoff := (index_n (bread h s) sep (l_line en) + Z.of_nat (List.length sep) + l_col en)%Z in
  if (soff <? 0)%Z || (eoff <? 0)%Z then None else bcut s (Z.to_nat soff) (Z.to_nat eoff).
(** rope.go:300-334 SliceLC *)
Fixpoint h_slice_lc (h : bheap) (r : hrope) (start en : loc) : option (bheap * bslice) :=
  match lcmp start en with
  | Lt =>
      match r with
      | HLeaf o s _ _ => x <- h_sliceloc h s (o_sep o) start en; Some (h, x)
      | HNode _ l r _ _ =>
          let ll := h_llen l in
          let lstart := minloc start ll in
          let lend := minloc en ll in
          let rl := h_llen r in
          let rstart := maxloc lzero (minloc (sublocs start ll) rl) in
          let rend := maxloc lzero (minloc (sublocs en ll) rl) in
          if negb (loc_eqb lstart lend) then
            if negb (loc_eqb rstart rend) then
              x <- h_slice_lc h l lstart lend; let (h, a) := x : bheap * bslice in
              x <- h_slice_lc h r rstart rend; let (h, b) := x : bheap * bslice in hs_concat h a b
            else h_slice_lc h l lstart lend
          else
            if negb (loc_eqb rstart rend) then h_slice_lc h r rstart rend
            else bmake h 0 0
      end
  | _ => bmake h 0 0
  end.
(** rope.go:344-359 SplitAt *)
Fixpoint h_split_at (h : bheap) (r : hrope) (i : nat) : option (bheap * (hrope * hrope)) :=
  match r with
  | HLeaf o s _ _ =>
      a <- bcut s 0 i; b <- bcut s i (bs_len s);
      x <- h_new h o a; let (h, l) := x : bheap * hrope in
      x <- h_new h o b; let (h, r) := x : bheap * hrope in Some (h, (l, r))
  | HNode _ l r _ _ =>
      let m := h_len l in
      if i =? m then Some (h, (l, r))
      else if i <? m then
        x <- h_split_at h l i; let '(h, (a, b)) := x : bheap * (hrope * hrope) in
        x <- h_join h b r; let (h, b) := x : bheap * hrope in Some (h, (a, b))
      else
        x <- h_split_at h r (i - m); let '(h, (a, b)) := x : bheap * (hrope * hrope) in
        x <- h_join h l a; let (h, a) := x : bheap * hrope in Some (h, (a, b))
  end.

(* ---------- a program that works with ropes ---------- *)
(** the memory, the ropes that are in use, and byte slices of the program itself *)
Record rworld := RW { w_heap : bheap; w_ropes : list (option hrope); w_bufs : list bslice }.
Inductive rop :=
| WBuf (b : list byte)          (* the program makes a slice with these bytes *)
| WFill (i : nat) (b : list byte) (* it writes other bytes of the same number into its slice [i] *)
| WNew (o : opts) (i : nat)       (* NewWithOpts of slice [i] *)
| WInsert (k pos i : nat)         (* Insert of slice [i] into rope [k] *)
| WRemove (k start en : nat)
| WSplit (k i : nat)              (* the two parts are new ropes; rope [k] is not used any more *)
| WJoin (j k : nat)               (* Join of ropes [j] and [k], which are not used any more *)
| WTake (k : nat) (start en : loc). (* the program keeps the result of SliceLC as one of its slices *)
Fixpoint rset {A} (l : list A) (k : nat) (x : A) : list A :=
  match l, k with
  | [], _ => []
  | _ :: l, O => x :: l
  | y :: l, S k => y :: rset l k x
  end.
Definition rget {A} (l : list (option A)) (k : nat) : option A := x <- nth_error l k; x.
Definition w_step (w : rworld) (op : rop) : option rworld :=
  let '(RW h rs bs) := w in
  match op with
  | WBuf b => Some (RW (h ++ [b]) rs (bs ++ [BS (List.length h) 0 (List.length b) (List.length b)]))
  | WFill i b => s <- nth_error bs i; if List.length b =? bs_len s then Some (RW (bput h (bs_arr s) (bs_off s) b) rs bs) else None
  | WNew o i => s <- nth_error bs i; x <- h_new h o s; let (h, r) := x : bheap * hrope in Some (RW h (rs ++ [Some r]) bs)
  | WInsert k pos i =>
      s <- nth_error bs i; r <- rget rs k;
      x <- h_insert h r pos s; let (h, r) := x : bheap * hrope in Some (RW h (rset rs k (Some r)) bs)
  | WRemove k start en => r <- rget rs k; x <- h_remove h r start en; let (h, r) := x : bheap * hrope in Some (RW h (rset rs k (Some r)) bs)
  | WSplit k i =>
      r <- rget rs k; x <- h_split_at h r i; let '(h, (a, b)) := x : bheap * (hrope * hrope) in
      Some (RW h (rset rs k None ++ [Some a; Some b]) bs)
  | WJoin j k =>
      a <- rget rs j; b <- rget rs k; x <- h_join h a b; let (h, r) := x : bheap * hrope in
      Some (RW h (rset (rset rs j None) k None ++ [Some r]) bs)
  | WTake k start en => r <- rget rs k; x <- h_slice_lc h r start en; let (h, s) := x : bheap * bslice in Some (RW h rs (bs ++ [s]))
  end.
Definition w_run (ops : list rop) : option rworld := fold_left (fun w op => w <- w; w_step w op) ops (Some (RW [] [] [])).
(** what Value shows for rope [k], and what slice [i] of the program holds *)
Definition w_value (w : rworld) (k : nat) : option (list byte) :=
  r <- rget (w_ropes w) k; x <- h_value (w_heap w) r; let (h, s) := x : bheap * bslice in Some (bread h s).
Definition w_buf (w : rworld) (i : nat) : option (list byte) := s <- nth_error (w_bufs w) i; Some (bread (w_heap w) s).
