(** Model of input/linerope: the rope with line and column positions.

    The methods of the code change a node in place; here they return the new node.  This is the same
    as long as a rope is not used any more after it has been given to Join or SplitAt, which share its
    nodes.  Slices are values: a leaf made by NewWithOpts has no spare capacity, so that the first edit
    copies it, and from then on its array belongs to that leaf only.

    [None] is a panic: an index out of range, a division by zero or a nil node.  An index above the
    length but within the capacity of a slice does not panic in the code; here it does.  The parallel
    loading of chunks in NewWithOpts is a map over the chunks. *)
From Coq Require Import ZArith.
From Verif Require Import Base.
Local Open Scope nat_scope.

Definition obind {A B} (x : option A) (f : A -> option B) : option B := match x with Some a => f a | None => None end.
Local Notation "x <- a ; b" := (obind a (fun x => b)) (at level 61, a at next level, right associativity).

(** s[a:b] *)
Definition slc (s : list byte) (a b : nat) : option (list byte) :=
  if (a <=? b) && (b <=? List.length s) then Some (firstn (b - a) (skipn a s)) else None.

(* ---------- package bytes, for a non-empty separator ---------- *)
Fixpoint prefixb (p b : list byte) : bool :=
  match p, b with
  | [], _ => true
  | x :: p, y :: b => byte_eqb x y && prefixb p b
  | _ :: _, [] => false
  end.
(** bytes.Index; [None] is -1 *)
Fixpoint bindex (b sep : list byte) : option nat :=
  if prefixb sep b then Some 0 else match b with [] => None | _ :: b => option_map S (bindex b sep) end.
(** bytes.LastIndex *)
Fixpoint blast (b sep : list byte) : option nat :=
  match b with
  | [] => if prefixb sep [] then Some 0 else None
  | _ :: b' => match blast b' sep with Some i => Some (S i) | None => if prefixb sep b then Some 0 else None end
  end.
(** bytes.Count: occurrences that do not overlap, from left to right *)
Fixpoint bcount_f (fuel : nat) (b sep : list byte) : nat :=
  match fuel with
  | O => 0
  | S fuel => match bindex b sep with None => 0 | Some i => S (bcount_f fuel (skipn (i + List.length sep) b) sep) end
  end.
Definition bcount (b sep : list byte) : nat := bcount_f (S (List.length b)) b sep.

(* ---------- line.go, util.go ---------- *)
(** line.go:7-10 *)
Record loc := Loc { l_line : Z; l_col : Z }.
Local Open Scope Z_scope.
(** line.go:12 *)
Definition lzero : loc := Loc 0 0.
Definition loc_eqb (a b : loc) : bool := (l_line a =? l_line b) && (l_col a =? l_col b).
(** line.go:14-28 *)
Definition llen (b sep : list byte) : loc :=
  let lines := bcount b sep in
  if (lines =? 0)%nat then Loc 0 (Z.of_nat (List.length b))
  else
    let last := match blast b sep with Some i => Z.of_nat i | None => -1 end + Z.of_nat (List.length sep) in
    Loc (Z.of_nat lines) (Z.of_nat (List.length b) - last).
(** line.go:30-51 *)
Definition addlocs (a b : loc) : loc :=
  if negb (l_line a =? 0) && negb (l_line b =? 0) then Loc (l_line a + l_line b) (l_col b)
  else if negb (l_line a =? 0) then Loc (l_line a) (l_col b + l_col a)
  else if negb (l_line b =? 0) then Loc (l_line b) (l_col b)
  else Loc 0 (l_col a + l_col b).
(** line.go:53-65 *)
Definition sublocs (a b : loc) : loc :=
  if l_line a =? l_line b then Loc (l_line a - l_line b) (l_col a - l_col b) else Loc (l_line a - l_line b) (l_col a).
(** line.go:67-79 *)
Definition lcmp (l other : loc) : comparison :=
  if l_line l =? l_line other then l_col l ?= l_col other
  else if l_line l <? l_line other then Lt else Gt.
(** line.go:81-93 *)
Definition minloc (a b : loc) : loc := match lcmp a b with Lt => a | _ => b end.
Definition maxloc (a b : loc) : loc := match lcmp a b with Gt => a | _ => b end.

(** util.go:8-25 indexN: the loop, with the last value of idx *)
Fixpoint index_loop (n : nat) (b sep : list byte) (index : Z) (idx : option nat) : Z * option nat :=
  match n with
  | O => (index, idx)
  | S n =>
      match bindex b sep with
      | None => (index, None)
      | Some i => index_loop n (skipn (i + List.length sep) b) sep (index + Z.of_nat i) (Some i)
      end
  end.
Definition index_n (b sep : list byte) (n : Z) : Z :=
  match index_loop (Z.to_nat n) b sep 0 None with
  | (index, None) => -1
  | (index, Some _) => index + (n - 1) * Z.of_nat (List.length sep)
  end.
(** util.go:28-41 lineCol *)
Fixpoint line_col_f (fuel : nat) (b sep : list byte) (pos : nat) (line : Z) (last : nat) : loc :=
  match fuel with
  | O => Loc line (Z.of_nat pos - Z.of_nat last)
  | S fuel =>
      match bindex (skipn last b) sep with
      | None => Loc line (Z.of_nat pos - Z.of_nat last)
      | Some idx =>
          if (pos <=? last + idx)%nat then Loc line (Z.of_nat pos - Z.of_nat last)
          else line_col_f fuel b sep pos (line + 1) (last + (idx + List.length sep))
      end
  end.
Definition line_col (b sep : list byte) (pos : nat) : loc := line_col_f (S (List.length b)) b sep pos 0 0.
(** line.go:95-99 *)
Definition sliceloc (b sep : list byte) (start en : loc) : option (list byte) :=
  let soff := index_n b sep (l_line start) + Z.of_nat (List.length sep) + l_col start in
  let eoff := index_n b sep (l_line en) + Z.of_nat (List.length sep) + l_col en in
  if (soff <? 0) || (eoff <? 0) then None else slc b (Z.to_nat soff) (Z.to_nat eoff).
Local Close Scope Z_scope.

(* ---------- rope.go ---------- *)
(** rope.go:16-27; the ratio is [o_num / o_den] *)
Record opts := Opts { o_split : nat; o_joinlen : nat; o_num : nat; o_den : nat; o_sep : list byte }.

(** rope.go:29-46 Node; [RNil] is a node of kind tNode whose children are nil (see [rp_rebuild]) *)
Inductive rope :=
| RLeaf (o : opts) (value : list byte) (length : nat) (llength : loc)
| RNode (o : opts) (left right : rope) (length : nat) (llength : loc)
| RNil (o : opts) (value : list byte) (length : nat) (llength : loc).
Definition rp_opts (r : rope) : opts := match r with RLeaf o _ _ _ | RNode o _ _ _ _ | RNil o _ _ _ => o end.
(** rope.go:131-143 Len, LLen, NumLines *)
Definition rp_len (r : rope) : nat := match r with RLeaf _ _ n _ | RNode _ _ _ n _ | RNil _ _ n _ => n end.
Definition rp_llen (r : rope) : loc := match r with RLeaf _ _ _ l | RNode _ _ _ _ l | RNil _ _ _ l => l end.
Definition rp_num_lines (r : rope) : Z := l_line (rp_llen r).

(** rope.go:172-179 Value *)
Fixpoint rp_value (r : rope) : option (list byte) :=
  match r with
  | RLeaf _ v _ _ => Some v
  | RNode _ l r _ _ => a <- rp_value l; b <- rp_value r; Some (a ++ b)
  | RNil _ _ _ _ => None
  end.

(** rope.go:157-166 adjust, case tNode *)
Definition adjust_node (r : rope) : option rope :=
  if rp_len r <? o_joinlen (rp_opts r)
  then v <- rp_value r; Some (RLeaf (rp_opts r) v (List.length v) (llen v (o_sep (rp_opts r))))
  else Some r.
(** rope.go:361-372 join *)
Definition rp_join (l r : rope) : option rope :=
  adjust_node (RNode (rp_opts l) l r (rp_len l + rp_len r) (addlocs (rp_llen l) (rp_llen r))).
(** rope.go:375-381 Join *)
Definition rp_join_all (a b : rope) (more : list rope) : option rope :=
  fold_left (fun s n => s <- s; rp_join s n) more (rp_join a b).

(** rope.go:89-97, 102-108: a leaf *)
Definition new_leaf (o : opts) (b : list byte) : rope := RLeaf o b (List.length b) (llen b (o_sep o)).
(** rope.go:117-121 *)
Fixpoint join_last (nodes : list rope) : option (list rope) :=
  match nodes with
  | [a; b] => n <- rp_join a b; Some [n]
  | a :: nodes => ns <- join_last nodes; Some (a :: ns)
  | [] => None
  end.
(** rope.go:123-126 *)
Fixpoint join_pairs (nodes : list rope) : option (list rope) :=
  match nodes with
  | [] => Some []
  | a :: b :: nodes => n <- rp_join a b; ns <- join_pairs nodes; Some (n :: ns)
  | [_] => None
  end.
(** rope.go:113-128 buildTree *)
Fixpoint build_tree (fuel : nat) (nodes : list rope) : option rope :=
  match nodes with
  | [n] => Some n
  | _ =>
      match fuel with
      | O => None
      | S fuel => nodes <- (if Nat.odd (List.length nodes) then join_last nodes else Some nodes); ns <- join_pairs nodes; build_tree fuel ns
      end
  end.
(** the full chunks of [b] (rope.go:85-97) *)
Fixpoint chunks (n sz : nat) (b : list byte) : list (list byte) :=
  match n with O => [] | S n => firstn sz b :: chunks n sz (skipn sz b) end.
(** rope.go:56-110 NewWithOpts *)
Definition rp_new (o : opts) (b : list byte) : option rope :=
  match o_split o with
  | O => None
  | sz =>
      let nchunks := List.length b / sz in
      let nodes := map (new_leaf o) (chunks nchunks sz b ++ [skipn (nchunks * sz) b]) in
      build_tree (List.length nodes) nodes
  end.

(** rope.go:145-167 adjust *)
Definition rp_adjust (r : rope) : option rope :=
  match r with
  | RLeaf o v n _ =>
      if o_split o <? n
      then
        let divide := n / 2 in
        a <- slc v 0 divide; b <- slc v divide (List.length v);
        l <- rp_new o a; r <- rp_new o b;
        Some (RNode o l r (rp_len l + rp_len r) (addlocs (rp_llen l) (rp_llen r)))
      else Some r
  | _ => adjust_node r
  end.

(** rope.go:182-206 Remove *)
Fixpoint rp_remove (r : rope) (start en : nat) : option rope :=
  match r with
  | RLeaf o v _ _ =>
      a <- slc v 0 start; b <- slc v en (List.length v);
      if start <=? en then rp_adjust (new_leaf o (a ++ b)) else None
  | RNode o l r _ _ =>
      let ll := rp_len l in
      let lstart := Nat.min start ll in
      let lend := Nat.min en ll in
      let rl := rp_len r in
      let rstart := Nat.min (start - ll) rl in
      let rend := Nat.min (en - ll) rl in
      l <- (if lstart <? ll then rp_remove l lstart lend else Some l);
      r <- (if 0 <? rend then rp_remove r rstart rend else Some r);
      rp_adjust (RNode o l r (rp_len l + rp_len r) (addlocs (rp_llen l) (rp_llen r)))
  | RNil _ _ _ _ => None
  end.

(** rope.go:209-227 Insert *)
Fixpoint rp_insert (r : rope) (pos : nat) (value : list byte) : option rope :=
  match r with
  | RLeaf o v _ _ => a <- slc v 0 pos; b <- slc v pos (List.length v); rp_adjust (new_leaf o (a ++ value ++ b))
  | RNode o l r _ _ =>
      lr <- (if pos <? rp_len l then l <- rp_insert l pos value; Some (l, r) else r <- rp_insert r (pos - rp_len l) value; Some (l, r));
      let (l, r) := lr : rope * rope in
      rp_adjust (RNode o l r (rp_len l + rp_len r) (addlocs (rp_llen l) (rp_llen r)))
  | RNil _ _ _ _ => None
  end.

(** rope.go:230-260 slice *)
Fixpoint rp_slice (r : rope) (start en : nat) : option (list byte) :=
  if en <=? start then Some []
  else
    match r with
    | RLeaf _ v _ _ => slc v start en
    | RNode _ l r _ _ =>
        let ll := rp_len l in
        let lstart := Nat.min start ll in
        let lend := Nat.min en ll in
        let rl := rp_len r in
        let rstart := Nat.min (start - ll) rl in
        let rend := Nat.min (en - ll) rl in
        if negb (lstart =? lend) then
          if negb (rstart =? rend) then a <- rp_slice l lstart lend; b <- rp_slice r rstart rend; Some (a ++ b)
          else rp_slice l lstart lend
        else
          if negb (rstart =? rend) then rp_slice r rstart rend
          else Some []
    | RNil _ _ _ _ => None
    end.
(** rope.go:337-340 At *)
Definition rp_at (r : rope) (pos : nat) : option byte := s <- rp_slice r pos (S pos); nth_error s 0.
(** rope.go:432-445 ReadAt with a buffer of [n] bytes at an offset that is not negative: the bytes
    read, and whether the error is io.EOF or nil *)
Definition rp_read_at (r : rope) (n off : nat) : option (list byte * bool) :=
  if rp_len r <? off then Some ([], true)
  else
    let en := off + n in
    let eof := rp_len r <=? en in
    let en := if eof then rp_len r else en in
    b <- rp_slice r off en; Some (firstn n b, eof).

(** rope.go:263-277 OffsetAt *)
Fixpoint rp_offset_at (r : rope) (pos : loc) : option Z :=
  match r with
  | RLeaf o v _ _ => Some (index_n v (o_sep o) (l_line pos) + Z.of_nat (List.length (o_sep o)) + l_col pos)%Z
  | RNode o l r _ _ =>
      match lcmp pos (rp_llen l) with
      | Lt => rp_offset_at l pos
      | _ => off <- rp_offset_at r (sublocs pos (rp_llen l)); Some (Z.of_nat (rp_len l) + off)%Z
      end
  | RNil _ _ _ _ => None
  end.
(** rope.go:280-297 LineColAt *)
Fixpoint rp_line_col_at (r : rope) (pos : nat) : option loc :=
  match r with
  | RLeaf o v _ _ => Some (line_col v (o_sep o) pos)
  | RNode o l r _ _ =>
      if pos <? rp_len l then rp_line_col_at l pos
      else a <- rp_line_col_at r (pos - rp_len l); Some (addlocs (rp_llen l) a)
  | RNil _ _ _ _ => None
  end.
(** rope.go:300-334 SliceLC *)
Fixpoint rp_slice_lc (r : rope) (start en : loc) : option (list byte) :=
  match lcmp start en with
  | Lt =>
      match r with
      | RLeaf o v _ _ => sliceloc v (o_sep o) start en
      | RNode _ l r _ _ =>
          let ll := rp_llen l in
          let lstart := minloc start ll in
          let lend := minloc en ll in
          let rl := rp_llen r in
          let rstart := maxloc lzero (minloc (sublocs start ll) rl) in
          let rend := maxloc lzero (minloc (sublocs en ll) rl) in
          if negb (loc_eqb lstart lend) then
            if negb (loc_eqb rstart rend) then a <- rp_slice_lc l lstart lend; b <- rp_slice_lc r rstart rend; Some (a ++ b)
            else rp_slice_lc l lstart lend
          else
            if negb (loc_eqb rstart rend) then rp_slice_lc r rstart rend
            else Some []
      | RNil _ _ _ _ => None
      end
  | _ => Some []
  end.

(** rope.go:344-359 SplitAt *)
Fixpoint rp_split_at (r : rope) (i : nat) : option (rope * rope) :=
  match r with
  | RLeaf o v _ _ =>
      a <- slc v 0 i; b <- slc v i (List.length v); l <- rp_new o a; r <- rp_new o b; Some (l, r)
  | RNode _ l r _ _ =>
      let m := rp_len l in
      if i =? m then Some (l, r)
      else if i <? m then
        x <- rp_split_at l i; let (a, b) := x : rope * rope in b <- rp_join b r; Some (a, b)
      else
        x <- rp_split_at r (i - m); let (a, b) := x : rope * rope in a <- rp_join l a; Some (a, b)
  | RNil _ _ _ _ => None
  end.

(** rope.go:384-392 Rebuild: the kind stays tNode *)
Definition rp_rebuild (r : rope) : option rope :=
  match r with
  | RLeaf _ _ _ _ => Some r
  | RNode o l r n ll => a <- rp_value l; b <- rp_value r; adjust_node (RNil o (a ++ b) n ll)
  | RNil _ _ _ _ => None
  end.
(** rope.go:395-407 Rebalance; the quotients of floats are compared as fractions *)
Fixpoint rp_rebalance (r : rope) : option rope :=
  match r with
  | RLeaf _ _ _ _ => Some r
  | RNode o a b n ll =>
      if (o_num o * rp_len b <? rp_len a * o_den o) || (o_num o * rp_len a <? rp_len b * o_den o) then rp_rebuild r
      else a <- rp_rebalance a; b <- rp_rebalance b; Some (RNode o a b n ll)
  | RNil _ _ _ _ => None
  end.

(** rope.go:410-416 Each *)
Fixpoint rp_each {A} (fn : A -> rope -> A) (r : rope) (a : A) : option A :=
  match r with
  | RLeaf _ _ _ _ => Some (fn a r)
  | RNode _ x y _ _ => a <- rp_each fn x (fn a r); rp_each fn y a
  | RNil _ _ _ _ => None
  end.
(** rope.go:419-429 EachLeaf *)
Fixpoint rp_each_leaf {A} (fn : A -> rope -> A * bool) (r : rope) (a : A) : option (A * bool) :=
  match r with
  | RLeaf _ _ _ _ => Some (fn a r)
  | RNode _ l r _ _ =>
      x <- rp_each_leaf fn l a;
      let (a, stop) := x : A * bool in
      if stop then Some (a, true) else rp_each_leaf fn r a
  | RNil _ _ _ _ => None
  end.
(** rope.go:448-458 WriteTo; the writer [w] returns its new state, the number of bytes written and
    whether there was an error.  The result is the total, and the error of the last write. *)
Definition rp_write_to {W} (w : W -> list byte -> W * nat * bool) (r : rope) (st : W) : option (W * nat * bool) :=
  x <- rp_each_leaf (fun '(st, total, err) leaf =>
    match rp_value leaf with
    | Some v => let '(st, n, err) := w st v in (st, total + n, err, err)
    | None => (st, total, err, true)
    end) r (st, 0, false);
  Some (fst x).
