(** Model of memo/interval/lazy/tree.go: the interval tree whose nodes hand pending shifts down to
    their children.

    The methods change nodes in place; here they return the new nodes.  A node that was taken out of the
    tree is gone.  As long as the keys are in order, no two nodes of the tree share their ivalues, so
    that this makes no difference; without that order (see Props_Lazy, C43_shrink_refuted, for what can
    break it) it could. *)
From Coq Require Import ZArith.
From Verif Require Import Base Model_Interval Spec_Interval.
Local Open Scope Z_scope.

Section Lazy.
Context {V : Type}.

(** lazy/tree.go:85-88 shift: idx and amt *)
Definition lshift : Type := Z * Z.

(** lazy/tree.go:90-101 node, without its children; lazy/tree.go:67-70 ivalues, whose elements are
    [ln_ins] and whose identity is [ln_iv]: it is the handle that Add returns.  [ln_ref] is the identity
    of the node and [ln_parent] that of the node its field parent points to. *)
Record lnode := LN { ln_ref : nat; ln_parent : option nat; ln_pos : Z; ln_id : Z; ln_max : Z;
                     ln_iv : nat; ln_ins : list (ival V); ln_sh : list lshift; ln_height : nat }.
Inductive ltree := LLeaf | LNode (n : lnode) (l r : ltree).

Definition lset_parent p n := LN (ln_ref n) p (ln_pos n) (ln_id n) (ln_max n) (ln_iv n) (ln_ins n) (ln_sh n) (ln_height n).
Definition lset_max m n := LN (ln_ref n) (ln_parent n) (ln_pos n) (ln_id n) m (ln_iv n) (ln_ins n) (ln_sh n) (ln_height n).
Definition lset_ins i n := LN (ln_ref n) (ln_parent n) (ln_pos n) (ln_id n) (ln_max n) (ln_iv n) i (ln_sh n) (ln_height n).
Definition lset_sh s n := LN (ln_ref n) (ln_parent n) (ln_pos n) (ln_id n) (ln_max n) (ln_iv n) (ln_ins n) s (ln_height n).
Definition lset_height h n := LN (ln_ref n) (ln_parent n) (ln_pos n) (ln_id n) (ln_max n) (ln_iv n) (ln_ins n) (ln_sh n) h.
(** the key and the ivalues of another node *)
Definition ltake m n := LN (ln_ref n) (ln_parent n) (ln_pos m) (ln_id m) (ln_max n) (ln_iv m) (ln_ins m) (ln_sh m) (ln_height n).

(** lazy/tree.go:103-109 addShift, once for each of [ss] *)
Definition add_shifts (ss : list lshift) (t : ltree) : ltree :=
  match t with LLeaf => LLeaf | LNode n l r => LNode (lset_sh (ln_sh n ++ ss) n) l r end.

(** lazy/tree.go:116-125: the effect of one shift on a node *)
Definition lshift_node (n : lnode) (s : lshift) : lnode :=
  let (idx, amt) := s in
  if idx <=? ln_max n then
    let n := if idx <=? ln_pos n
             then LN (ln_ref n) (ln_parent n) (ln_pos n + amt) (ln_id n) (ln_max n) (ln_iv n) (ins_shift amt (ln_ins n)) (ln_sh n) (ln_height n)
             else n in
    lset_max (ln_max n + amt) n
  else n.
Definition lapply (ss : list lshift) (n : lnode) : lnode := fold_left lshift_node ss n.

(** lazy/tree.go:111-131 applyShifts *)
Definition push (t : ltree) : ltree :=
  match t with
  | LLeaf => LLeaf
  | LNode n l r => LNode (lset_sh [] (lapply (ln_sh n) n)) (add_shifts (ln_sh n) l) (add_shifts (ln_sh n) r)
  end.

(** lazy/tree.go:171-179 calcMax *)
Definition calc_max (ins : list (ival V)) : Z := ins_high ins.
(** lazy/tree.go:181-191 updateMax *)
Definition lmax_with (t : ltree) (m : Z) : Z := match t with LLeaf => m | LNode c _ _ => Z.max m (ln_max c) end.
Definition lupdate_max (n : lnode) (l r : ltree) : lnode :=
  lset_max (Z.max (lmax_with l (lmax_with r (ln_max n))) (calc_max (ln_ins n))) n.

(** lazy/tree.go:316-321 getHeight, 323-328 getSize, 330-333 updateHeightAndMax *)
Definition lheight (t : ltree) : nat := match t with LLeaf => 0 | LNode n _ _ => ln_height n end.
Fixpoint lsize (t : ltree) : nat := match t with LLeaf => 0 | LNode _ l r => (lsize l + lsize r + 1)%nat end.
Definition lrefit (n : lnode) (l r : ltree) : lnode :=
  lupdate_max (lset_height (1 + Nat.max (lheight l) (lheight r)) n) l r.
Definition with_parent (p : option nat) (t : ltree) : ltree :=
  match t with LLeaf => LLeaf | LNode n l r => LNode (lset_parent p n) l r end.

(** lazy/tree.go:360-379 rotateLeft, 381-400 rotateRight; a rotation without the child it needs is a nil
    dereference, but rebalanceTree never does one *)
Definition lrotate_left (p : option nat) (t : ltree) : option ltree :=
  match push t with
  | LLeaf => None
  | LNode n l r =>
      match push r with
      | LLeaf => None
      | LNode m rl rr =>
          let rl := with_parent (Some (ln_ref n)) rl in
          let n := lrefit (lset_parent (Some (ln_ref m)) n) l rl in
          let left := LNode n l rl in
          Some (LNode (lrefit (lset_parent p m) left rr) left rr)
      end
  end.
Definition lrotate_right (p : option nat) (t : ltree) : option ltree :=
  match push t with
  | LLeaf => None
  | LNode n l r =>
      match push l with
      | LLeaf => None
      | LNode m ll lr =>
          let lr := with_parent (Some (ln_ref n)) lr in
          let n := lrefit (lset_parent (Some (ln_ref m)) n) lr r in
          let right := LNode n lr r in
          Some (LNode (lrefit (lset_parent p m) ll right) ll right)
      end
  end.
Definition lor_self (o : option ltree) (t : ltree) : ltree := match o with Some t' => t' | None => t end.
Definition lheight_left (t : ltree) : nat := match t with LLeaf => 0 | LNode _ l _ => lheight l end.
Definition lheight_right (t : ltree) : nat := match t with LLeaf => 0 | LNode _ _ r => lheight r end.

(** lazy/tree.go:335-358 rebalanceTree *)
Definition lrebalance (p : option nat) (t : ltree) : ltree :=
  match t with
  | LLeaf => LLeaf
  | LNode n l r =>
      let n := lrefit n l r in
      if (lheight r =? lheight l + 2)%nat then
        let r := if (lheight_right r <? lheight_left r)%nat then lor_self (lrotate_right (Some (ln_ref n)) r) r else r in
        lor_self (lrotate_left p (LNode n l r)) (LNode n l r)
      else if (lheight l =? lheight r + 2)%nat then
        let l := if (lheight_left l <? lheight_right l)%nat then lor_self (lrotate_left (Some (ln_ref n)) l) l else l in
        lor_self (lrotate_right p (LNode n l r)) (LNode n l r)
      else LNode n l r
  end.

(** In the following functions [ss] are shifts that the parent has handed down to the root of the tree:
    the argument stands for [add_shifts ss t]. *)

(** lazy/tree.go:133-169 add; [ref] is the identity of a node and of an ivalues allocated now.  The second
    result is the handle. *)
Fixpoint ladd (ref : nat) (pos id : Z) (v : ival V) (p : option nat) (ss : list lshift) (t : ltree) : ltree * nat :=
  match t with
  | LLeaf => (LNode (LN ref p pos id (iv_high v) ref [v] [] 1) LLeaf LLeaf, ref)
  | LNode n l r =>
      let s := ln_sh n ++ ss in
      let n := lset_sh [] (lapply s n) in
      match key_compare pos id (ln_pos n) (ln_id n) with
      | Lt => let (l, h) := ladd ref pos id v (Some (ln_ref n)) s l in (lrebalance p (LNode n l (add_shifts s r)), h)
      | Gt => let (r, h) := ladd ref pos id v (Some (ln_ref n)) s r in (lrebalance p (LNode n (add_shifts s l) r), h)
      | Eq => (lrebalance p (LNode (lset_ins (ln_ins n ++ [v]) n) (add_shifts s l) (add_shifts s r)), ln_iv n)
      end
  end.

(** lazy/tree.go:402-410 findSmallest, of a node that had its shifts applied: the node found *)
Fixpoint lsmallest (ss : list lshift) (n : lnode) (l : ltree) : lnode :=
  let s := ln_sh n ++ ss in
  match l with
  | LLeaf => lset_sh [] (lapply s n)
  | LNode ln ll _ => lsmallest s ln ll
  end.

(** lazy/tree.go:193-233 remove.  findSmallest applies the shifts of the nodes on the way to the smallest
    one; the recursive call goes the same way and applies the same shifts first, so it starts from [r]. *)
Fixpoint lremove (pos id : Z) (p : option nat) (ss : list lshift) (t : ltree) : ltree :=
  match t with
  | LLeaf => LLeaf
  | LNode n l r =>
      let s := ln_sh n ++ ss in
      let n := lset_sh [] (lapply s n) in
      match key_compare pos id (ln_pos n) (ln_id n) with
      | Lt => lrebalance p (LNode (lset_parent p n) (lremove pos id (Some (ln_ref n)) s l) (add_shifts s r))
      | Gt => lrebalance p (LNode (lset_parent p n) (add_shifts s l) (lremove pos id (Some (ln_ref n)) s r))
      | Eq =>
          match l, r with
          | LNode _ _ _, LNode rn rl rr =>
              let m := lsmallest s rn rl in
              let n := ltake m n in
              lrebalance p (LNode (lset_parent p n) (push (add_shifts s l)) (lremove (ln_pos m) (ln_id m) (Some (ln_ref n)) s r))
          | LNode _ _ _, LLeaf => lrebalance p (with_parent p (push (add_shifts s l)))
          | LLeaf, LNode _ _ _ => lrebalance p (with_parent p (push (add_shifts s r)))
          | LLeaf, LLeaf => LLeaf
          end
      end
  end.

(** lazy/tree.go:235-247 search: the tree after the shifts were applied on the way, and the node *)
Fixpoint lsearch (pos id : Z) (ss : list lshift) (t : ltree) : ltree * option lnode :=
  match t with
  | LLeaf => (LLeaf, None)
  | LNode n l r =>
      let s := ln_sh n ++ ss in
      let n := lset_sh [] (lapply s n) in
      match key_compare pos id (ln_pos n) (ln_id n) with
      | Lt => let (l, res) := lsearch pos id s l in (LNode n l (add_shifts s r), res)
      | Gt => let (r, res) := lsearch pos id s r in (LNode n (add_shifts s l) r, res)
      | Eq => (LNode n (add_shifts s l) (add_shifts s r), Some n)
      end
  end.

(** lazy/interval.go:24-26 Overlaps *)
Definition loverlaps (i : ival V) (low high : Z) : bool := (iv_low i <? high) && (low <? iv_high i).
(** lazy/tree.go:289-297: a removed interval is replaced by the last one; [kept] are those before i *)
Fixpoint ldrop (fuel : nat) (low high : Z) (kept ins : list (ival V)) : list (ival V) :=
  match fuel, ins with
  | S fuel, i :: rest =>
      if loverlaps i low high then
        match rest with
        | [] => kept
        | _ :: _ => ldrop fuel low high kept (last rest i :: removelast rest)
        end
      else ldrop fuel low high (kept ++ [i]) rest
  | _, _ => kept ++ ins
  end.

(** lazy/tree.go:276-314 removeOverlaps; [None] is out of fuel *)
Fixpoint lremove_overlaps (fuel : nat) (low high : Z) (p : option nat) (t : ltree) : option ltree :=
  match fuel with
  | O => None
  | S fuel =>
    match push t with
    | LLeaf => Some LLeaf
    | LNode n l r =>
        if ln_max n <=? low then Some (LNode n l r)
        else
          match lremove_overlaps fuel low high (Some (ln_ref n)) l with
          | None => None
          | Some l =>
              let n := lset_ins (ldrop (S (List.length (ln_ins n))) low high [] (ln_ins n)) n in
              match ln_ins n with
              | [] =>
                  let t := lremove (ln_pos n) (ln_id n) p [] (LNode n l r) in
                  if ln_pos n <? high then lremove_overlaps fuel low high p t else Some t
              | _ :: _ =>
                  if high <=? ln_pos n then Some (LNode n l r)
                  else
                    match lremove_overlaps fuel low high (Some (ln_ref n)) r with
                    | None => None
                    | Some r => Some (LNode n l r)
                    end
              end
          end
    end
  end.

(** lazy/tree.go:26-28 Tree; [lt_next] numbers allocations *)
Record lztree := LT { lt_root : ltree; lt_next : nat }.
Definition lt_empty : lztree := LT LLeaf 0.

(** lazy/tree.go:30-35 Add *)
Definition lt_add (t : lztree) (id low high : Z) (v : V) : lztree * nat :=
  let (r, h) := ladd (lt_next t) low id (Iv low high v) None [] (lt_root t) in (LT r (S (lt_next t)), h).

(** lazy/tree.go:44-51: the first one with the largest end, if that is above 0 *)
Fixpoint lbest (max : Z) (best : ival V) (ins : list (ival V)) : ival V :=
  match ins with
  | [] => best
  | i :: ins => if max <? iv_high i then lbest (iv_high i) i ins else lbest max best ins
  end.
(** lazy/tree.go:37-52 FindLargest *)
Definition lt_find (t : lztree) (id pos : Z) : lztree * option V :=
  let (r, res) := lsearch pos id [] (lt_root t) in
  (LT r (lt_next t),
   match res with
   | Some n => match ln_ins n with [] => None | i :: ins => Some (iv_val (lbest 0 i (i :: ins))) end
   | None => None
   end).

(** lazy/tree.go:54-61 RemoveAndShift *)
Definition lt_remove_and_shift (t : lztree) (low high amt : Z) : option lztree :=
  match lremove_overlaps (S (lsize (lt_root t))) low high None (lt_root t) with
  | None => None
  | Some r => Some (LT (if amt =? 0 then r else add_shifts [(low, amt)] r) (lt_next t))
  end.

(** lazy/tree.go:63-66 Size *)
Definition lt_size (t : lztree) : nat := lsize (lt_root t).

(** lazy/tree.go:72-75 Pos and 412-417 applyAllShifts: the shifts are applied from the root down to the
    node that has the ivalues; the way to the root is that of the parent pointers (Props_Lazy,
    C43_parents).  The handle of ivalues that are no longer in the tree gives [None] here (not
    modelled). *)
Fixpoint lhas (h : nat) (t : ltree) : bool :=
  match t with LLeaf => false | LNode n l r => (ln_iv n =? h)%nat || lhas h l || lhas h r end.
Fixpoint ltouch (h : nat) (ss : list lshift) (t : ltree) : ltree * option Z :=
  match t with
  | LLeaf => (LLeaf, None)
  | LNode n l r =>
      let s := ln_sh n ++ ss in
      let n' := lset_sh [] (lapply s n) in
      if (ln_iv n =? h)%nat then (LNode n' (add_shifts s l) (add_shifts s r), Some (ln_pos n'))
      else if lhas h l then let (l, x) := ltouch h s l in (LNode n' l (add_shifts s r), x)
      else if lhas h r then let (r, x) := ltouch h s r in (LNode n' (add_shifts s l) r, x)
      else (add_shifts ss t, None)
  end.
Definition lt_pos (t : lztree) (h : nat) : lztree * option Z :=
  let (r, x) := ltouch h [] (lt_root t) in (LT r (lt_next t), x).

(** the operations of Spec_Interval *)
Definition lt_step (t : option lztree) (o : iop V) : option lztree :=
  match t with
  | None => None
  | Some t =>
      match o with
      | OAdd id low high v => Some (fst (lt_add t id low high v))
      | OFind id pos => Some (fst (lt_find t id pos))
      | OShift low high amt => lt_remove_and_shift t low high amt
      | OPos h => Some (fst (lt_pos t h))
      end
  end.
Definition lt_run (tr : list (iop V)) : option lztree := fold_left lt_step tr (Some lt_empty).

(** not in the code: every field parent points to the node above, that of the root nowhere *)
Fixpoint parents_from (p : option nat) (t : ltree) : Prop :=
  match t with
  | LLeaf => True
  | LNode n l r => ln_parent n = p /\ parents_from (Some (ln_ref n)) l /\ parents_from (Some (ln_ref n)) r
  end.
End Lazy.
Arguments lnode : clear implicits.
Arguments ltree : clear implicits.
Arguments lztree : clear implicits.
