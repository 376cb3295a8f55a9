(** Model of memo/interval/lazylog (interval.go, tree.go): the interval tree with lazy shifts. *)
From Verif Require Import Base.
From Coq Require Import ZArith.
Local Open Scope Z_scope.

Section Lazylog.
Context {V : Type}.

(** lazylog/interval.go:5-8 interval *)
Record ival := Iv { iv_low : Z; iv_high : Z; iv_val : V }.

(** lazylog/interval.go:18-20 *)
Definition iv_length (i : ival) : Z := iv_high i - iv_low i.

(** lazylog/interval.go:27-29 overlaps *)
Definition overlaps (i : ival) (low high : Z) : bool := (iv_low i <=? high) && (low <=? iv_high i).

(** lazylog/tree.go:40-44 shift *)
Record shift := Sh { sh_idx : Z; sh_amt : Z; sh_ts : nat }.

(** lazylog/tree.go:134-145 node, without its children.  [n_ref] is the identity of the node; the
    node and its lazyInterval (tree.go:454-457) are allocated together and point to each other for
    ever, so it is also the identity of the handle that Add returns. *)
Record nd := Nd { n_ref : nat; n_pos : Z; n_id : Z; n_max : Z; n_ins : list ival; n_ts : nat; n_height : nat }.

Inductive tree := Leaf | Node (n : nd) (l r : tree).

(** lazylog/tree.go:24-35 key.compare *)
Definition key_compare (pos id pos' id' : Z) : comparison :=
  if pos <? pos' then Lt else if pos' <? pos then Gt
  else if id <? id' then Lt else if id' <? id then Gt else Eq.

(** lazylog/tree.go:464-472 lazyInterval.High *)
Definition ins_high (ins : list ival) : Z :=
  fold_left (fun h i => if h <? iv_high i then iv_high i else h) ins 0.

(** lazylog/tree.go:474-479 lazyInterval.Shift *)
Definition ins_shift (amt : Z) (ins : list ival) : list ival :=
  map (fun i => Iv (iv_low i + amt) (iv_high i + amt) (iv_val i)) ins.

Definition set_max (m : Z) (n : nd) : nd := Nd (n_ref n) (n_pos n) (n_id n) m (n_ins n) (n_ts n) (n_height n).
Definition set_ins (i : list ival) (n : nd) : nd := Nd (n_ref n) (n_pos n) (n_id n) (n_max n) i (n_ts n) (n_height n).
Definition set_ts (t : nat) (n : nd) : nd := Nd (n_ref n) (n_pos n) (n_id n) (n_max n) (n_ins n) t (n_height n).
Definition set_height (h : nat) (n : nd) : nd := Nd (n_ref n) (n_pos n) (n_id n) (n_max n) (n_ins n) (n_ts n) h.
Definition set_key (p i : Z) (n : nd) : nd := Nd (n_ref n) p i (n_max n) (n_ins n) (n_ts n) (n_height n).

(** lazylog/tree.go:181-191 updateMax, given the children *)
Definition max_with (t : tree) (m : Z) : Z := match t with Leaf => m | Node c _ _ => Z.max m (n_max c) end.
Definition update_max (n : nd) (l r : tree) : nd :=
  set_max (Z.max (max_with l (max_with r (n_max n))) (ins_high (n_ins n))) n.

(** lazylog/tree.go:395-411 applyShift *)
Definition apply_shift (s : shift) (n : nd) (l r : tree) : nd :=
  if (sh_ts s <=? n_ts n)%nat then n
  else
    let n := set_ts (sh_ts s) n in
    if n_max n <? sh_idx s then n
    else
      let n := set_max (n_max n + sh_amt s) n in
      let n := if sh_idx s <=? n_pos n
               then set_ins (ins_shift (sh_amt s) (n_ins n)) (set_key (n_pos n + sh_amt s) (n_id n) n)
               else n in
      update_max n l r.

(** lazylog/tree.go:421-427: the index of the first shift to apply *)
Fixpoint shift_start (ts : nat) (shs : list shift) (j : nat) : nat :=
  match j with
  | O => O
  | S j' =>
      match nth_error shs j with
      | Some s => if (sh_ts s <=? ts)%nat then S j else shift_start ts shs j'
      | None => shift_start ts shs j'
      end
  end.

(** lazylog/tree.go:413-431 applyShifts *)
Definition apply_shifts (shs : list shift) (n : nd) (l r : tree) : nd :=
  match rev shs with
  | [] => n
  | s :: _ =>
      if (sh_ts s <=? n_ts n)%nat then n
      else
        fold_left (fun n s => apply_shift s n l r)
                  (skipn (shift_start (n_ts n) shs (List.length shs - 1)) shs) n
  end.

(** applyShifts of the root of a subtree, if there is one *)
Definition sync (shs : list shift) (t : tree) : tree :=
  match t with Leaf => Leaf | Node n l r => Node (apply_shifts shs n l r) l r end.

(** lazylog/tree.go:305-310 getHeight, 319-321 recalculateHeight *)
Definition height (t : tree) : nat := match t with Leaf => O | Node n _ _ => n_height n end.
Definition recalc (n : nd) (l r : tree) : nd := set_height (S (Nat.max (height l) (height r))) n.

(** lazylog/tree.go:349-365 rotateLeft and 367-383 rotateRight.  Rotating a node without that child
    dereferences nil; rebalanceTree never does it (Proof_Interval5, rebalance_rotates). *)
Definition rotate_left (shs : list shift) (t : tree) : option tree :=
  match t with
  | Leaf => None
  | Node n l r =>
      let n := apply_shifts shs n l r in
      match sync shs r with
      | Leaf => None
      | Node m rl rr =>
          let n := update_max (recalc n l rl) l rl in
          let left := Node n l rl in
          Some (Node (update_max (recalc m left rr) left rr) left rr)
      end
  end.
Definition rotate_right (shs : list shift) (t : tree) : option tree :=
  match t with
  | Leaf => None
  | Node n l r =>
      let n := apply_shifts shs n l r in
      match sync shs l with
      | Leaf => None
      | Node m ll lr =>
          let n := update_max (recalc n lr r) lr r in
          let right := Node n lr r in
          Some (Node (update_max (recalc m ll right) ll right) ll right)
      end
  end.
Definition or_self (o : option tree) (t : tree) : tree := match o with Some t' => t' | None => t end.

(** heights of the grandchildren *)
Definition height_left (t : tree) : nat := match t with Leaf => O | Node _ l _ => height l end.
Definition height_right (t : tree) : nat := match t with Leaf => O | Node _ _ r => height r end.

(** lazylog/tree.go:324-347 rebalanceTree *)
Definition rebalance (shs : list shift) (t : tree) : tree :=
  match t with
  | Leaf => Leaf
  | Node n l r =>
      let n := update_max (recalc n l r) l r in
      if (height l + 2 <=? height r)%nat then
        let r := if (height_right r <? height_left r)%nat then or_self (rotate_right shs r) r else r in
        or_self (rotate_left shs (Node n l r)) (Node n l r)
      else if (height r + 2 <=? height l)%nat then
        let l := if (height_left l <? height_right l)%nat then or_self (rotate_left shs l) l else l in
        or_self (rotate_right shs (Node n l r)) (Node n l r)
      else Node n l r
  end.

(** lazylog/tree.go:148-179 node.add; [k] is the tree's timestamp and [ref] the identity of a node
    allocated now.  The second result is the identity of the handle. *)
Fixpoint add (shs : list shift) (k ref : nat) (pos id : Z) (v : ival) (t : tree) : tree * nat :=
  match t with
  | Leaf => (Node (Nd ref pos id (iv_high v) [v] k 1) Leaf Leaf, ref)
  | Node n l r =>
      let n := apply_shifts shs n l r in
      match key_compare pos id (n_pos n) (n_id n) with
      | Lt => let (l, h) := add shs k ref pos id v l in (rebalance shs (Node n l r), h)
      | Gt => let (r, h) := add shs k ref pos id v r in (rebalance shs (Node n l r), h)
      | Eq => (rebalance shs (Node (set_ts k (set_ins (n_ins n ++ [v]) n)) l r), n_ref n)
      end
  end.

(** lazylog/tree.go:386-393 findSmallest, after applyShifts of the node it is called on *)
Fixpoint smallest (shs : list shift) (n : nd) (l r : tree) : nd :=
  let n := apply_shifts shs n l r in
  match l with
  | Leaf => n
  | Node ln ll lr => smallest shs ln ll lr
  end.

(** Go's copy(dst, src) *)
Definition go_copy {A} (dst src : list A) : list A :=
  firstn (List.length dst) src ++ skipn (List.length src) dst.

(** lazylog/tree.go:194-233 node.remove.  findSmallest applies the shifts of the nodes on the way to
    the smallest one; node.remove, called next with that key, goes the same way and applies the
    same shifts first (Proof_Interval5, remove_spine), so the recursive call starts from [r]. *)
Fixpoint remove (shs : list shift) (pos id : Z) (t : tree) : tree :=
  match t with
  | Leaf => Leaf
  | Node n l r =>
      let n := apply_shifts shs n l r in
      match key_compare pos id (n_pos n) (n_id n) with
      | Lt => rebalance shs (Node n (remove shs pos id l) r)
      | Gt => rebalance shs (Node n l (remove shs pos id r))
      | Eq =>
          match l, r with
          | Node _ _ _, Node rn rl rr =>
              let m := smallest shs rn rl rr in
              let n := set_key (n_pos m) (n_id m) n in
              let n := set_ins (go_copy (n_ins n) (n_ins m)) n in
              let n := set_ts (n_ts m) n in
              rebalance shs (Node n (sync shs l) (remove shs (n_pos m) (n_id m) r))
          | Node _ _ _, Leaf => rebalance shs (sync shs l)
          | Leaf, Node _ _ _ => rebalance shs (sync shs r)
          | Leaf, Leaf => Leaf
          end
      end
  end.

(** lazylog/tree.go:236-248 node.search: the tree after the shifts were applied on the way, and the
    node that was found *)
Fixpoint search (shs : list shift) (pos id : Z) (t : tree) : tree * option nd :=
  match t with
  | Leaf => (Leaf, None)
  | Node n l r =>
      let n := apply_shifts shs n l r in
      match key_compare pos id (n_pos n) (n_id n) with
      | Lt => let (l, res) := search shs pos id l in (Node n l r, res)
      | Gt => let (r, res) := search shs pos id r in (Node n l r, res)
      | Eq => (Node n l r, Some n)
      end
  end.

(** lazylog/tree.go:263-271: removal of the overlapping intervals of a node; a removed one is replaced
    by the last.  [kept] are the ones before index i. *)
Fixpoint drop_overlaps (fuel : nat) (low high : Z) (kept ins : list ival) : list ival :=
  match fuel, ins with
  | S fuel, i :: rest =>
      if overlaps i low high then
        match rest with
        | [] => kept
        | _ :: _ => drop_overlaps fuel low high kept (last rest i :: removelast rest)
        end
      else drop_overlaps fuel low high (kept ++ [i]) rest
  | _, _ => kept ++ ins
  end.

(** lazylog/tree.go:312-317 size *)
Fixpoint size (t : tree) : nat := match t with Leaf => O | Node _ l r => (size l + size r + 1)%nat end.

(** lazylog/tree.go:250-287 removeOverlaps; [None] is out of fuel (never, with fuel above the size of
    the tree: if it is in order, Proof_Interval2, remove_overlaps_spec) *)
Fixpoint remove_overlaps (fuel : nat) (shs : list shift) (low high : Z) (t : tree) : option tree :=
  match fuel with
  | O => None
  | S fuel =>
    match t with
    | Leaf => Some Leaf
    | Node n l r =>
        let n := apply_shifts shs n l r in
        if n_max n <? low then Some (Node n l r)
        else
          match remove_overlaps fuel shs low high l with
          | None => None
          | Some l =>
              let n := set_ins (drop_overlaps (S (List.length (n_ins n))) low high [] (n_ins n)) n in
              match n_ins n with
              | [] =>
                  let t := remove shs (n_pos n) (n_id n) (Node n l r) in
                  if n_pos n <=? high then remove_overlaps fuel shs low high t else Some t
              | _ :: _ =>
                  if high <? n_pos n then Some (Node n l r)
                  else
                    match remove_overlaps fuel shs low high r with
                    | None => None
                    | Some r => Some (Node n l r)
                    end
              end
          end
    end
  end.

(** lazylog/tree.go:289-303 allvals *)
Fixpoint allvals (t : tree) : list V :=
  match t with Leaf => [] | Node n l r => allvals l ++ map iv_val (n_ins n) ++ allvals r end.

(** lazylog/tree.go:46-50 Tree; [t_next] numbers allocations *)
Record itree := IT { t_root : tree; t_shifts : list shift; t_ts : nat; t_next : nat }.
Definition it_empty : itree := IT Leaf [] 0 0.

(** lazylog/tree.go:55-66 Add *)
Definition it_add (t : itree) (id low high : Z) (v : V) : itree * nat :=
  let (r, h) := add (t_shifts t) (t_ts t) (t_next t) low id (Iv low high v) (t_root t) in
  (IT r (t_shifts t) (t_ts t) (S (t_next t)), h).

(** lazylog/tree.go:80-87: index of the first longest interval *)
Fixpoint longest (best : ival) (ins : list ival) : ival :=
  match ins with
  | [] => best
  | i :: ins => longest (if iv_length best <? iv_length i then i else best) ins
  end.

(** lazylog/tree.go:70-90 FindLargest *)
Definition it_find (t : itree) (id pos : Z) : itree * option V :=
  let (r, res) := search (t_shifts t) pos id (t_root t) in
  (IT r (t_shifts t) (t_ts t) (t_next t),
   match res with
   | Some n => match n_ins n with [] => None | i :: ins => Some (iv_val (longest i ins)) end
   | None => None
   end).

(** lazylog/tree.go:92-97 RemoveAndShift and 108-122 shift (ShiftThreshold is -1) *)
Definition it_remove_and_shift (t : itree) (low high amt : Z) : option itree :=
  match remove_overlaps (S (size (t_root t))) (t_shifts t) low high (t_root t) with
  | None => None
  | Some r =>
      if amt =? 0 then Some (IT r (t_shifts t) (t_ts t) (t_next t))
      else Some (IT r (t_shifts t ++ [Sh low amt (S (t_ts t))]) (S (t_ts t)) (t_next t))
  end.

(** lazylog/tree.go:99-102 AllValues, 129-132 Size *)
Definition it_values (t : itree) : list V := allvals (t_root t).
Definition it_size (t : itree) : nat := size (t_root t).

(** lazylog/tree.go:459-462 lazyInterval.Pos: apply the shifts of the handle's node in place.  A
    handle whose node is no longer in the tree gives [None] here; Model_Detach has those. *)
Fixpoint touch (shs : list shift) (h : nat) (t : tree) : tree * option Z :=
  match t with
  | Leaf => (Leaf, None)
  | Node n l r =>
      if (n_ref n =? h)%nat then let n := apply_shifts shs n l r in (Node n l r, Some (n_pos n))
      else
        let (l, p) := touch shs h l in
        match p with
        | Some _ => (Node n l r, p)
        | None => let (r, p) := touch shs h r in (Node n l r, p)
        end
  end.
Definition it_pos (t : itree) (h : nat) : itree * option Z :=
  let (r, p) := touch (t_shifts t) h (t_root t) in (IT r (t_shifts t) (t_ts t) (t_next t), p).

End Lazylog.
Arguments ival : clear implicits.
Arguments nd : clear implicits.
Arguments tree : clear implicits.
Arguments itree : clear implicits.
