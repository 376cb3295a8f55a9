(** Properties C30 to C34: the rope of input/linerope. *)
From Coq Require Import ZArith.
From Verif Require Import Base Model_Rope Spec_Rope Proof_Rope Proof_Rope2.
Local Open Scope nat_scope.

Definition sep_nl : list byte := [x0a].
(** short leaves, so that small ropes have many nodes *)
Definition small_opts : opts := Opts 3 2 6 5 sep_nl.
Definition txt (n : nat) : list byte := concat (repeat [x61; x62; x0a; x63; x0a] n).
Definition get (x : option rope) : rope := match x with Some r => r | None => RNil small_opts [] 0 lzero end.
Definition rope1 : rope := get (rp_new small_opts (txt 4)).
Definition rope2 : rope := get (rp_insert rope1 7 (txt 2)).
Definition rope3 : rope := get (rp_remove rope2 4 9).
Definition text3 : list byte := firstn 4 (firstn 7 (txt 4) ++ txt 2 ++ skipn 7 (txt 4)) ++ skipn 9 (firstn 7 (txt 4) ++ txt 2 ++ skipn 7 (txt 4)).
Lemma small_splits : line_ends x0a small_opts.
Proof. split; [unfold splits; cbn; lia|reflexivity]. Qed.
Example C30_ex_made : forall P : opts -> Prop, P small_opts -> made P rope3 text3.
Proof.
  intros P HP. apply (made_remove P rope2 (firstn 7 (txt 4) ++ txt 2 ++ skipn 7 (txt 4)) 4 9); [|vm_compute; lia|vm_compute; reflexivity].
  apply (made_insert P rope1 (txt 4) 7 (txt 2)); [|vm_compute; lia|vm_compute; reflexivity]. apply (made_new P small_opts (txt 4)); [exact HP|vm_compute; reflexivity].
Qed.
Example C30_ex_nodes : exists o l r n ll, rope3 = RNode o l r n ll /\ n = 25.
Proof. vm_compute. repeat eexists. Qed.

(** C30: NewWithOpts, Insert and Remove do not panic for positions in range, ... *)
Theorem C30_new : forall o b, splits o -> exists r, rp_new o b = Some r.
Proof. intros o b H. destruct (new_wf splits (fun _ h => h) o b H) as (r & E & _). exists r. exact E. Qed.
Print Assumptions C30_new.
Theorem C30_insert : forall r b pos v, made splits r b -> pos <= List.length b -> exists r', rp_insert r pos v = Some r'.
Proof. intros r b pos v H L. destruct (insert_wf splits (fun _ h => h) r b pos v (made_wf splits (fun _ h => h) r b H) L) as (r' & E & _). exists r'. exact E. Qed.
Print Assumptions C30_insert.
Theorem C30_remove : forall r b start en, made splits r b -> start <= en <= List.length b -> exists r', rp_remove r start en = Some r'.
Proof. intros r b start en H L. destruct (remove_wf splits (fun _ h => h) r b start en (made_wf splits (fun _ h => h) r b H) L) as (r' & E & _). exists r'. exact E. Qed.
Print Assumptions C30_remove.
(** ... and after any number of them, and of SplitAt and Join, Value is the byte string that the same
    edits make, and Len its length *)
Theorem C30_value : forall r b, made splits r b -> rp_value r = Some b /\ rp_len r = List.length b.
Proof.
  intros r b H. pose proof (made_wf splits (fun _ h => h) r b H) as W. split; [eapply wfr_value|eapply wfr_len]; exact W.
Qed.
Print Assumptions C30_value.
(** with SplitLen 0, New divides by zero *)
Theorem C30_split0_refuted : exists o b, rp_new o b = None.
Proof. exists (Opts 0 0 1 1 sep_nl), []. reflexivity. Qed.
Print Assumptions C30_split0_refuted.

(** C31: ReadAt gives the bytes from the offset on, as many as fit and as there are, and io.EOF
    exactly if the end is reached *)
Theorem C31_read : forall r b n off, made splits r b -> off <= List.length b ->
  rp_read_at r n off = Some (firstn n (skipn off b), List.length b <=? off + n).
Proof. intros r b n off H. apply (read_at_wf splits). exact (made_wf splits (fun _ h => h) r b H). Qed.
Print Assumptions C31_read.
Theorem C31_read_beyond : forall r b n off, made splits r b -> List.length b < off -> rp_read_at r n off = Some ([], true).
Proof.
  intros r b n off H L. unfold rp_read_at. rewrite (wfr_len splits r b (made_wf splits (fun _ h => h) r b H)). rewrite (proj2 (Nat.ltb_lt _ _)) by exact L. reflexivity.
Qed.
Print Assumptions C31_read_beyond.
Theorem C31_at : forall r b i, made splits r b -> i < List.length b -> rp_at r i = nth_error b i.
Proof. intros r b i H. apply (at_wf splits). exact (made_wf splits (fun _ h => h) r b H). Qed.
Print Assumptions C31_at.
(** WriteTo writes everything, in order; to a writer that becomes full, it writes what fits, stops
    and returns the error *)
Theorem C31_write : forall r b st, made splits r b -> rp_write_to store r st = Some (st ++ b, List.length b, false).
Proof.
  intros r b st H. unfold rp_write_to. rewrite (write_wf splits r b st 0 false (made_wf splits (fun _ h => h) r b H)). reflexivity.
Qed.
Print Assumptions C31_write.
Theorem C31_write_full : forall r b k, made splits r b ->
  rp_write_to (limited k) r [] = Some (firstn k b, Nat.min k (List.length b), k <? List.length b).
Proof.
  intros r b k H. unfold rp_write_to. rewrite (limited_wf splits k r b [] 0 false (made_wf splits (fun _ h => h) r b H)). cbn [List.length]. rewrite Nat.sub_0_r. reflexivity.
Qed.
Print Assumptions C31_write_full.
Example C31_ex : rp_read_at rope3 6 3 = Some ([x63; x0a; x63; x0a; x61; x62], false) /\ rp_at rope3 24 = Some x0a /\ rp_read_at rope3 9 20 = Some ([x61; x62; x0a; x63; x0a], true).
Proof. vm_compute. auto. Qed.

(** C32: for a line separator of one byte, LineColAt counts the separators before a position and the
    bytes after the last of them, [loc_of]; OffsetAt is its inverse; NumLines is the number of
    separators in the whole text; SliceLC gives the bytes between two positions *)
Theorem C32_line_col : forall c r b pos, made (line_ends c) r b -> pos <= List.length b -> rp_line_col_at r pos = Some (loc_of c (firstn pos b)).
Proof. intros c r b pos H. apply wf_line_col. exact (made_wf (line_ends c) (fun _ h => proj1 h) r b H). Qed.
Print Assumptions C32_line_col.
Theorem C32_offset : forall c r b pos, made (line_ends c) r b -> pos <= List.length b ->
  exists l, rp_line_col_at r pos = Some l /\ rp_offset_at r l = Some (Z.of_nat pos).
Proof.
  intros c r b pos H L. pose proof (made_wf (line_ends c) (fun _ h => proj1 h) r b H) as W. eexists. split; [apply (wf_line_col c r b pos W L)|apply wf_offset; assumption].
Qed.
Print Assumptions C32_offset.
Theorem C32_num_lines : forall c r b, made (line_ends c) r b ->
  rp_num_lines r = Z.of_nat (count_occ Byte.byte_eq_dec b c) /\ rp_llen r = loc_of c b.
Proof.
  intros c r b H. pose proof (wf_llen c r b (made_wf (line_ends c) (fun _ h => proj1 h) r b H)) as E. split; [|exact E]. unfold rp_num_lines. rewrite E. apply loc_line.
Qed.
Print Assumptions C32_num_lines.
Theorem C32_slice : forall c r b p q, made (line_ends c) r b -> p <= q <= List.length b ->
  rp_slice_lc r (loc_of c (firstn p b)) (loc_of c (firstn q b)) = Some (firstn (q - p) (skipn p b)).
Proof. intros c r b p q H. apply wf_slice_lc. exact (made_wf (line_ends c) (fun _ h => proj1 h) r b H). Qed.
Print Assumptions C32_slice.
Theorem C32_slice_empty : forall c r b p q, made (line_ends c) r b -> q <= p <= List.length b ->
  rp_slice_lc r (loc_of c (firstn p b)) (loc_of c (firstn q b)) = Some [].
Proof. intros c r b p q H. apply wf_slice_none. exact (made_wf (line_ends c) (fun _ h => proj1 h) r b H). Qed.
Print Assumptions C32_slice_empty.
(** the line and the column, said without [loc_of] *)
Theorem C32_meaning : forall c b pos, pos <= List.length b ->
  l_line (loc_of c (firstn pos b)) = Z.of_nat (count_occ Byte.byte_eq_dec (firstn pos b) c) /\
  exists k, l_col (loc_of c (firstn pos b)) = Z.of_nat k /\ k <= pos /\
    ~ In c (firstn k (skipn (pos - k) b)) /\ (k = pos \/ nth_error b (pos - k - 1) = Some c).
Proof. exact loc_meaning. Qed.
Print Assumptions C32_meaning.
Example C32_ex : made (line_ends x0a) rope3 text3 /\ rp_line_col_at rope3 7 = Some (Loc 3 0) /\ rp_offset_at rope3 (Loc 3 0) = Some 7%Z /\
  rp_num_lines rope3 = 11%Z /\ rp_slice_lc rope3 (Loc 1 1) (Loc 4 1) = Some [x0a; x63; x0a; x61; x62; x0a; x63].
Proof. split; [apply C30_ex_made; exact small_splits|]. vm_compute. auto. Qed.

(** in one leaf, the lines are those between the separators, however long the separator is *)
Theorem C32_leaf : forall sep b, sep <> [] -> exists parts, cut_at sep parts b /\ (l_line (llen b sep) + 1)%Z = Z.of_nat (List.length parts).
Proof. exact llen_cut. Qed.
Print Assumptions C32_leaf.
Example C32_leaf_ex : l_line (llen [x61; x61; x61; x62; x61; x61] [x61; x61]) = 2%Z /\ ~ cut_at [x61; x61] [[x61]; [x62]; []] [x61; x61; x61; x62; x61; x61].
Proof.
  split; [reflexivity|]. intros [b [E [N _]]]. apply N. exists [], []. reflexivity.
Qed.

(** with a separator of two bytes, the position (0, 0) is not offset 0, and a separator that lies
    across two leaves is not counted *)
Definition crlf_opts : opts := Opts 4 2 6 5 [x0d; x0a].
Theorem C32_multibyte_refuted : exists r b, made splits r b /\ rp_line_col_at r 0 = Some lzero /\ rp_offset_at r lzero <> Some 0%Z.
Proof.
  exists (get (rp_new crlf_opts [x61])), [x61]. split; [apply (made_new splits crlf_opts); [unfold splits; cbn; lia|vm_compute; reflexivity]|].
  split; [vm_compute; reflexivity|vm_compute; discriminate].
Qed.
Print Assumptions C32_multibyte_refuted.
Theorem C32_across_refuted : exists r b, made splits r b /\ rp_num_lines r <> Z.of_nat (bcount b (o_sep (rp_opts r))).
Proof.
  exists (get (rp_new crlf_opts [x61; x61; x61; x0d; x0a; x61])), [x61; x61; x61; x0d; x0a; x61].
  split; [apply (made_new splits crlf_opts); [unfold splits; cbn; lia|vm_compute; reflexivity]|]. vm_compute. discriminate.
Qed.
Print Assumptions C32_across_refuted.

(** C33: SplitAt and Join do not panic; what they return is again [made], so that C30, C31 and C32
    hold for it *)
Theorem C33_split : forall (P : opts -> Prop) r b i, (forall o, P o -> splits o) -> made P r b -> i <= List.length b ->
  exists x y, rp_split_at r i = Some (x, y) /\ rp_value x = Some (firstn i b) /\ rp_value y = Some (skipn i b) /\ made P x (firstn i b) /\ made P y (skipn i b).
Proof.
  intros P r b i HP H L. destruct (split_wf P HP r b i (made_wf P HP r b H) L) as (x & y & E & Hx & Hy). exists x, y. split; [exact E|].
  split; [eapply wfr_value; exact Hx|]. split; [eapply wfr_value; exact Hy|]. split; [eapply made_left|eapply made_right]; eassumption.
Qed.
Print Assumptions C33_split.
Theorem C33_join : forall (P : opts -> Prop) a b more s t us, (forall o, P o -> splits o) -> made P a s -> made P b t -> Forall2 (made P) more us ->
  exists r, rp_join_all a b more = Some r /\ rp_value r = Some (s ++ t ++ concat us) /\ made P r (s ++ t ++ concat us).
Proof.
  intros P a b more s t us HP Ha Hb Hm. assert (W : Forall2 (wfr P) more us).
  { clear - Hm HP. induction Hm; constructor; [apply made_wf; assumption|assumption]. }
  destruct (join_all_wf' P a b more s t us (made_wf P HP a s Ha) (made_wf P HP b t Hb) W) as (r & E & Hr). exists r. split; [exact E|].
  split; [eapply wfr_value; exact Hr|eapply made_join; eassumption].
Qed.
Print Assumptions C33_join.
Example C33_ex : exists x y r, rp_split_at rope3 11 = Some (x, y) /\ rp_join_all y x [rope1] = Some r /\
  made (line_ends x0a) r (skipn 11 text3 ++ firstn 11 text3 ++ concat [txt 4]).
Proof.
  pose proof (C30_ex_made (line_ends x0a) small_splits) as M. destruct (C33_split (line_ends x0a) rope3 text3 11 (fun _ h => proj1 h) M ltac:(vm_compute; lia)) as (x & y & E & _ & _ & Hx & Hy).
  exists x, y. assert (M1 : made (line_ends x0a) rope1 (txt 4)) by (apply (made_new _ small_opts); [exact small_splits|vm_compute; reflexivity]).
  destruct (C33_join (line_ends x0a) y x [rope1] _ _ [txt 4] (fun _ h => proj1 h) Hy Hx (Forall2_cons _ _ M1 (Forall2_nil _))) as (r & E2 & _ & Hr). exists r. auto.
Qed.

(** C34: false.  Rebuild of a rope that is not a single leaf panics, or leaves a rope on which Value
    panics: it drops the children and keeps the kind of the node *)
Theorem C34_rebuild_refuted : forall r b, made splits r b ->
  rp_rebuild r = Some r \/ rp_rebuild r = None \/ exists r', rp_rebuild r = Some r' /\ rp_value r' = None.
Proof. intros r b H. eapply (rebuild_breaks splits). exact (made_wf splits (fun _ h => h) r b H). Qed.
Print Assumptions C34_rebuild_refuted.
Theorem C34_rebuild_value_refuted : exists r b r', made splits r b /\ rp_rebuild r = Some r' /\ rp_value r' = None /\ rp_insert r' 0 [] = None.
Proof. exists rope3, text3, (get (rp_rebuild rope3)). split; [apply C30_ex_made; apply small_splits|]. vm_compute. auto. Qed.
Print Assumptions C34_rebuild_value_refuted.
(** Rebalance calls Rebuild on the nodes that are out of balance; the rope of this witness has the
    default ratio of 1.2 *)
Theorem C34_rebalance_refuted : exists r b r', made splits r b /\ rp_rebalance r = Some r' /\ rp_value r' = None.
Proof. exists rope3, text3, (get (rp_rebalance rope3)). split; [apply C30_ex_made; apply small_splits|]. vm_compute. auto. Qed.
Print Assumptions C34_rebalance_refuted.
(** what is left: a rope shorter than JoinLen is a single leaf, if JoinLen is at most SplitLen + 1, and
    does not change; and Rebalance does not change a rope that is in balance *)
Theorem C34_short_partial : forall r b, made splits r b -> o_joinlen (rp_opts r) <= S (o_split (rp_opts r)) -> List.length b < o_joinlen (rp_opts r) ->
  rp_rebuild r = Some r /\ rp_rebalance r = Some r.
Proof. intros r b H. apply (small_leaf splits). exact (made_wf splits (fun _ h => h) r b H). Qed.
Print Assumptions C34_short_partial.
Theorem C34_balanced_partial : forall r b, made splits r b -> balanced r -> rp_rebalance r = Some r.
Proof. intros r b H. apply (balanced_same splits r b). exact (made_wf splits (fun _ h => h) r b H). Qed.
Print Assumptions C34_balanced_partial.
Example C34_ex_balanced : exists o l r n ll, get (rp_new (Opts 10 2 6 5 sep_nl) (firstn 19 (txt 4))) = RNode o l r n ll /\ balanced (RNode o l r n ll).
Proof. vm_compute. repeat eexists; lia. Qed.
Example C34_ex_short : exists r, made splits r [x61] /\ o_joinlen (rp_opts r) = 2 /\ o_split (rp_opts r) = 3.
Proof. exists (get (rp_new small_opts [x61])). split; [apply (made_new splits small_opts); [apply small_splits|vm_compute; reflexivity]|vm_compute; auto]. Qed.
