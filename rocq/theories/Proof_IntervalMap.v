(** The interval tree does not look at the values it stores: replacing every value by its image
    commutes with Add and FindLargest. *)
From Coq Require Import ZArith.
From Verif Require Import Base Model_Interval Spec_Interval.
Local Open Scope nat_scope.

Section Map.
Context {V W : Type}.
Variable f : V -> W.
Definition ivmap (i : ival V) : ival W := Iv (iv_low i) (iv_high i) (f (iv_val i)).
Definition ndmap (n : nd V) : nd W := Nd (n_ref n) (n_pos n) (n_id n) (n_max n) (map ivmap (n_ins n)) (n_ts n) (n_height n).
Fixpoint tmap (t : tree V) : tree W := match t with Leaf => Leaf | Node n l r => Node (ndmap n) (tmap l) (tmap r) end.
Definition itmap (t : itree V) : itree W := IT (tmap (t_root t)) (t_shifts t) (t_ts t) (t_next t).

Lemma ins_high_map : forall ins, ins_high (map ivmap ins) = ins_high ins.
Proof. intro ins. unfold ins_high. generalize 0%Z. induction ins as [|i ins IH]; intro z; [reflexivity|]. cbn [map fold_left ivmap iv_high]. apply IH. Qed.
Lemma max_with_map : forall t m, max_with (tmap t) m = max_with t m.
Proof. intros [|n l r] m; reflexivity. Qed.
Lemma update_max_map : forall n l r, update_max (ndmap n) (tmap l) (tmap r) = ndmap (update_max n l r).
Proof. intros n l r. unfold update_max, set_max. cbn [ndmap n_ref n_pos n_id n_max n_ins n_ts n_height]. rewrite !max_with_map, ins_high_map. reflexivity. Qed.
Lemma ins_shift_map : forall a ins, ins_shift a (map ivmap ins) = map ivmap (ins_shift a ins).
Proof. intros a ins. unfold ins_shift. rewrite !map_map. reflexivity. Qed.
Lemma apply_shift_map : forall s n l r, apply_shift s (ndmap n) (tmap l) (tmap r) = ndmap (apply_shift s n l r).
Proof.
  intros s n l r. unfold apply_shift. cbn [ndmap n_ts]. destruct (sh_ts s <=? n_ts n); [reflexivity|]. cbn [set_ts n_max ndmap].
  destruct (_ <? _)%Z; [reflexivity|]. cbn [set_max set_key set_ins n_pos n_ins n_id n_ref n_max n_ts n_height ndmap].
  destruct (_ <=? _)%Z; rewrite <- update_max_map; f_equal. unfold ndmap, set_ins, set_key, set_max, set_ts. cbn [n_ref n_pos n_id n_max n_ins n_ts n_height]. rewrite ins_shift_map. reflexivity.
Qed.
Lemma apply_shifts_map : forall shs n l r, apply_shifts shs (ndmap n) (tmap l) (tmap r) = ndmap (apply_shifts shs n l r).
Proof.
  intros shs n l r. unfold apply_shifts. destruct (rev shs); [reflexivity|]. cbn [ndmap n_ts]. destruct (_ <=? _); [reflexivity|].
  generalize (skipn (shift_start (n_ts n) shs (List.length shs - 1)) shs). intro k. revert n. induction k as [|x k IH]; intro n; [reflexivity|]. cbn [fold_left].
  rewrite apply_shift_map. apply IH.
Qed.
Lemma sync_map : forall shs t, sync shs (tmap t) = tmap (sync shs t).
Proof. intros shs [|n l r]; [reflexivity|]. cbn [tmap sync]. rewrite apply_shifts_map. reflexivity. Qed.
Lemma height_map : forall t, height (tmap t) = height t.
Proof. intros [|n l r]; reflexivity. Qed.
Lemma recalc_map : forall n l r, recalc (ndmap n) (tmap l) (tmap r) = ndmap (recalc n l r).
Proof. intros n l r. unfold recalc. rewrite !height_map. reflexivity. Qed.
Lemma rotate_left_map : forall shs t, rotate_left shs (tmap t) = option_map tmap (rotate_left shs t).
Proof.
  intros shs [|n l r]; [reflexivity|]. cbn [tmap rotate_left]. rewrite apply_shifts_map, sync_map. destruct (sync shs r) as [|m rl rr]; [reflexivity|]. cbn [tmap option_map].
  set (n' := apply_shifts shs n l r). rewrite recalc_map, update_max_map. change (Node (ndmap (update_max (recalc n' l rl) l rl)) (tmap l) (tmap rl)) with (tmap (Node (update_max (recalc n' l rl) l rl) l rl)).
  rewrite recalc_map, update_max_map. reflexivity.
Qed.
Lemma rotate_right_map : forall shs t, rotate_right shs (tmap t) = option_map tmap (rotate_right shs t).
Proof.
  intros shs [|n l r]; [reflexivity|]. cbn [tmap rotate_right]. rewrite apply_shifts_map, sync_map. destruct (sync shs l) as [|m ll lr]; [reflexivity|]. cbn [tmap option_map].
  set (n' := apply_shifts shs n l r). rewrite recalc_map, update_max_map. change (Node (ndmap (update_max (recalc n' lr r) lr r)) (tmap lr) (tmap r)) with (tmap (Node (update_max (recalc n' lr r) lr r) lr r)).
  rewrite recalc_map, update_max_map. reflexivity.
Qed.
Lemma or_self_map : forall o t, or_self (option_map tmap o) (tmap t) = tmap (or_self o t).
Proof. intros [o|] t; reflexivity. Qed.
Lemma rebalance_map : forall shs t, rebalance shs (tmap t) = tmap (rebalance shs t).
Proof.
  intros shs [|n l r]; [reflexivity|]. cbn [tmap rebalance]. rewrite recalc_map, update_max_map, !height_map. set (n' := update_max (recalc n l r) l r).
  replace (height_right (tmap r)) with (height_right r) by (destruct r; cbn; rewrite ?height_map; reflexivity).
  replace (height_left (tmap r)) with (height_left r) by (destruct r; cbn; rewrite ?height_map; reflexivity).
  replace (height_right (tmap l)) with (height_right l) by (destruct l; cbn; rewrite ?height_map; reflexivity).
  replace (height_left (tmap l)) with (height_left l) by (destruct l; cbn; rewrite ?height_map; reflexivity).
  destruct (_ <=? _); [|destruct (_ <=? _); [|reflexivity]].
  - replace (if height_right r <? height_left r then or_self (rotate_right shs (tmap r)) (tmap r) else tmap r)
      with (tmap (if height_right r <? height_left r then or_self (rotate_right shs r) r else r)).
    2:{ destruct (_ <? _); [|reflexivity]. rewrite rotate_right_map, or_self_map. reflexivity. }
    match goal with |- context [Node (ndmap n') (tmap l) (tmap ?x)] => change (Node (ndmap n') (tmap l) (tmap x)) with (tmap (Node n' l x)) end.
    rewrite rotate_left_map, or_self_map. reflexivity.
  - replace (if height_left l <? height_right l then or_self (rotate_left shs (tmap l)) (tmap l) else tmap l)
      with (tmap (if height_left l <? height_right l then or_self (rotate_left shs l) l else l)).
    2:{ destruct (_ <? _); [|reflexivity]. rewrite rotate_left_map, or_self_map. reflexivity. }
    match goal with |- context [Node (ndmap n') (tmap ?x) (tmap r)] => change (Node (ndmap n') (tmap x) (tmap r)) with (tmap (Node n' x r)) end.
    rewrite rotate_right_map, or_self_map. reflexivity.
Qed.
Lemma add_map : forall shs k ref pos id v t, add shs k ref pos id (ivmap v) (tmap t) = (tmap (fst (add shs k ref pos id v t)), snd (add shs k ref pos id v t)).
Proof.
  intros shs k ref pos id v t. induction t as [|n l IHl r IHr]; [reflexivity|]. cbn [tmap add]. rewrite apply_shifts_map. cbn [ndmap n_pos n_id].
  set (n' := apply_shifts shs n l r). destruct (key_compare pos id (n_pos n') (n_id n')).
  - cbn [fst snd]. f_equal. rewrite <- rebalance_map. cbn [tmap]. f_equal. f_equal. unfold set_ts, set_ins, ndmap. cbn [n_ref n_pos n_id n_max n_ins n_ts n_height]. rewrite map_app. reflexivity.
  - rewrite IHl. destruct (add shs k ref pos id v l) as [l' h]. cbn [fst snd]. f_equal. rewrite <- rebalance_map. reflexivity.
  - rewrite IHr. destruct (add shs k ref pos id v r) as [r' h]. cbn [fst snd]. f_equal. rewrite <- rebalance_map. reflexivity.
Qed.
Lemma search_map : forall shs pos id t, search shs pos id (tmap t) = (tmap (fst (search shs pos id t)), option_map ndmap (snd (search shs pos id t))).
Proof.
  intros shs pos id t. induction t as [|n l IHl r IHr]; [reflexivity|]. cbn [tmap search]. rewrite apply_shifts_map. cbn [ndmap n_pos n_id].
  set (n' := apply_shifts shs n l r). destruct (key_compare pos id (n_pos n') (n_id n')).
  - reflexivity.
  - rewrite IHl. destruct (search shs pos id l). reflexivity.
  - rewrite IHr. destruct (search shs pos id r). reflexivity.
Qed.
Lemma longest_map : forall ins b, longest (ivmap b) (map ivmap ins) = ivmap (longest b ins).
Proof.
  induction ins as [|i ins IH]; intro b; [reflexivity|]. cbn [map longest]. rewrite <- IH. f_equal. unfold iv_length. cbn [ivmap iv_high iv_low]. destruct (_ <? _)%Z; reflexivity.
Qed.

Theorem it_add_map : forall t id low high v, it_add (itmap t) id low high (f v) = (itmap (fst (it_add t id low high v)), snd (it_add t id low high v)).
Proof.
  intros t id low high v. unfold it_add, itmap. cbn [t_root t_shifts t_ts t_next]. change (Iv low high (f v)) with (ivmap (Iv low high v)). rewrite add_map.
  destruct (add _ _ _ _ _ _ (t_root t)). reflexivity.
Qed.
Theorem it_find_map : forall t id pos, it_find (itmap t) id pos = (itmap (fst (it_find t id pos)), option_map f (snd (it_find t id pos))).
Proof.
  intros t id pos. unfold it_find, itmap. cbn [t_root t_shifts t_ts t_next]. rewrite search_map. destruct (search _ _ _ (t_root t)) as [r [n|]]; [|reflexivity].
  cbn [fst snd option_map ndmap n_ins]. destruct (n_ins n) as [|i ins]; [reflexivity|]. cbn [map]. rewrite longest_map. reflexivity.
Qed.
End Map.
