(** Model of memo/interval/lazylog/tree.go, continued: the nodes that RemoveAndShift takes out of the tree.  The
    handles that Add returned for them (tree.go:454-457 lazyInterval) still point to them and may be asked later. *)
From Coq Require Import ZArith.
From Verif Require Import Base Model_Interval Spec_Interval.
Local Open Scope Z_scope.

Section Detach.
Context {V : Type}.
Notation tree := (tree V).
Notation nd := (nd V).

(** a node that is not in the tree any more, with the identities of the nodes that its pointers left and right
    still point to *)
Record dead := Dead { d_nd : nd; d_left : option nat; d_right : option nat }.
Definition d_ref (d : dead) : nat := n_ref (d_nd d).
Definition ref_of (t : tree) : option nat := match t with Leaf => None | Node n _ _ => Some (n_ref n) end.

(** lazylog/tree.go:194-233 node.remove: the nodes that it takes out (see Model_Interval.remove).  A node with two
    children stays and gets the key of another one, which is taken out. *)
Fixpoint remove_out (shs : list shift) (pos id : Z) (t : tree) : list dead :=
  match t with
  | Leaf => []
  | Node n l r =>
      let n := apply_shifts shs n l r in
      match key_compare pos id (n_pos n) (n_id n) with
      | Lt => remove_out shs pos id l
      | Gt => remove_out shs pos id r
      | Eq =>
          match l, r with
          | Node _ _ _, Node rn rl rr => let m := smallest shs rn rl rr in remove_out shs (n_pos m) (n_id m) r
          | _, _ => [Dead n (ref_of l) (ref_of r)]
          end
      end
  end.

(** lazylog/tree.go:250-287 removeOverlaps: the nodes that it takes out (see Model_Interval.remove_overlaps) *)
Fixpoint overlaps_out (fuel : nat) (shs : list shift) (low high : Z) (t : tree) : list dead :=
  match fuel with
  | O => []
  | S fuel =>
    match t with
    | Leaf => []
    | Node n l r =>
        let n := apply_shifts shs n l r in
        if n_max n <? low then []
        else
          let out := overlaps_out fuel shs low high l in
          match remove_overlaps fuel shs low high l with
          | None => out
          | Some l =>
              let n := set_ins (drop_overlaps (S (List.length (n_ins n))) low high [] (n_ins n)) n in
              match n_ins n with
              | [] =>
                  let out := out ++ remove_out shs (n_pos n) (n_id n) (Node n l r) in
                  let t := remove shs (n_pos n) (n_id n) (Node n l r) in
                  if n_pos n <=? high then out ++ overlaps_out fuel shs low high t else out
              | _ :: _ => if high <? n_pos n then out else out ++ overlaps_out fuel shs low high r
              end
          end
    end
  end.

(** a tree together with the nodes that were taken out of it *)
Record dtree := DT { dt_tree : itree V; dt_dead : list dead }.
Definition dt_empty : dtree := DT it_empty [].

(** the node with the given identity *)
Fixpoint node_at (h : nat) (t : tree) : option nd :=
  match t with
  | Leaf => None
  | Node n l r => if (n_ref n =? h)%nat then Some n else match node_at h l with Some m => Some m | None => node_at h r end
  end.
Definition dead_at (h : nat) (ds : list dead) : option dead := find (fun d => (d_ref d =? h)%nat) ds.
(** the maximum in a child of a node that was taken out, as a tree that updateMax can look at *)
Definition peeked (d : dtree) (child : option nat) : tree :=
  match child with
  | None => Leaf
  | Some h =>
      match node_at h (t_root (dt_tree d)), dead_at h (dt_dead d) with
      | Some n, _ => Node n Leaf Leaf
      | None, Some c => Node (d_nd c) Leaf Leaf
      | None, None => Leaf
      end
  end.

(** lazylog/tree.go:459-462 lazyInterval.Pos, of any handle that Add has returned *)
Definition dt_pos (d : dtree) (h : nat) : dtree * option Z :=
  match node_at h (t_root (dt_tree d)), dead_at h (dt_dead d) with
  | Some _, _ => let (t, p) := it_pos (dt_tree d) h in (DT t (dt_dead d), p)
  | None, Some c =>
      let n := apply_shifts (t_shifts (dt_tree d)) (d_nd c) (peeked d (d_left c)) (peeked d (d_right c)) in
      (DT (dt_tree d) (map (fun e => if (d_ref e =? h)%nat then Dead n (d_left e) (d_right e) else e) (dt_dead d)), Some (n_pos n))
  | None, None => (d, None)
  end.

(** lazylog/tree.go:92-97 RemoveAndShift *)
Definition dt_remove_and_shift (d : dtree) (low high amt : Z) : option dtree :=
  let t := dt_tree d in
  match it_remove_and_shift t low high amt with
  | None => None
  | Some t' => Some (DT t' (overlaps_out (S (size (t_root t))) (t_shifts t) low high (t_root t) ++ dt_dead d))
  end.

(** the operations of Spec_Interval; Add and FindLargest do not reach the nodes that were taken out *)
Definition dt_step (d : option dtree) (o : iop V) : option dtree :=
  match d with
  | None => None
  | Some d =>
      match o with
      | OAdd id low high v => Some (DT (fst (it_add (dt_tree d) id low high v)) (dt_dead d))
      | OFind id pos => Some (DT (fst (it_find (dt_tree d) id pos)) (dt_dead d))
      | OShift low high amt => dt_remove_and_shift d low high amt
      | OPos h => Some (fst (dt_pos d h))
      end
  end.
Definition dt_run (tr : list (iop V)) : option dtree := fold_left dt_step tr (Some dt_empty).

(** the range [low,high] of no edit of the history touches the interval of the given length at p *)
Fixpoint untouched (p len : Z) (b : list (iop V)) : Prop :=
  match b with
  | [] => True
  | o :: b => match o with OShift low high _ => high < p \/ p + len < low | _ => True end /\ untouched (moved p o) len b
  end.
End Detach.
Arguments dead : clear implicits.
Arguments dtree : clear implicits.
