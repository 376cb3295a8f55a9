(** Forms of the lemmas on encoding and optimizing used in the property files. *)
From Verif Require Import Base Model_Charset Model_Isa Model_Capture Model_Input Spec_Input Proof_Input Model_Code Model_VM Model_Pattern Spec_Peg Spec_Scope Spec_Run Proof_Machine Proof_Sim Proof_Emit Proof_Optimize Proof_Encode.
Local Open Scope nat_scope.

Lemma u8_spec : forall x, (encode_u8 x = None <-> (256 <= x)%N) /\
  forall bs, encode_u8 x = Some bs -> List.length bs = 1 /\ forall r, option_map bN (decode_u8 (bs ++ r)) = Some x.
Proof.
  intro x. split.
  - unfold encode_u8. destruct (N.leb_spec 256 x); split; intro; try reflexivity; try assumption; try discriminate; lia.
  - intros bs H. apply u8_rt in H. destruct H as (b & -> & Hb). split; [reflexivity|]. intro r. cbn. rewrite Hb. reflexivity.
Qed.
Lemma i16_spec : forall x, (encode_i16 x = None <-> (x < -32768 \/ 32768 <= x)%Z) /\
  forall bs, encode_i16 x = Some bs -> List.length bs = 2 /\ forall r, decode_i16 (bs ++ r) = Some x.
Proof.
  intro x. split.
  - unfold encode_i16. destruct (Z.ltb_spec x (-32768)); [|destruct (Z.leb_spec 32768 x)]; simpl orb; cbv iota zeta; split; intro; try reflexivity; try discriminate; lia.
  - intros bs H. apply i16_rt in H. destruct H as (a & b & -> & Hb). split; [reflexivity|]. intro r. apply Hb.
Qed.
Lemma u24_spec : forall x, (encode_u24 x = None <-> (16777216 <= x)%N) /\
  forall bs, encode_u24 x = Some bs -> List.length bs = 3 /\ forall r, decode_u24 (bs ++ r) = Some x.
Proof.
  intro x. split.
  - unfold encode_u24. destruct (N.leb_spec 16777216 x); cbv iota zeta; split; intro; try reflexivity; try assumption; try discriminate; lia.
  - intros bs H. apply u24_rt in H. destruct H as (a & b & c & -> & Hb). split; [reflexivity|]. intro r. apply Hb.
Qed.

Lemma offset_offs : forall p k, offset_of p k = offs p k.
Proof.
  induction p as [|i p IH]; intros [|k]; try reflexivity. unfold offset_of in *. cbn [firstn map offs]. change (insn_size i + list_sum (map insn_size (firstn k p)) = insn_size i + offs p k). rewrite IH. reflexivity.
Qed.
Lemma map_lbl_ext : forall f g i, (forall l, f l = g l) -> map_lbl f i = map_lbl g i.
Proof. intros f g i H. destruct i; cbn [map_lbl]; rewrite ?H; reflexivity. Qed.
Lemma fetch_spec : forall p c, encode p = Some c -> forall k i,
  nth_error p k = Some i -> is_label_or_nop i = false ->
  exists i', decode c (offset_of p k) = Some i' /\
    i' = map_lbl (fun l => offset_of p (lbl_index p l)) i /\ offset_of p k + sz i' = offset_of p (S k).
Proof.
  intros p c H k i Hk Hi. destruct (encode_fetch p c H k i Hk Hi) as [A B]. exists (map_lbl (lbl_offset p) i). rewrite !offset_offs.
  split; [exact A|]. split; [apply map_lbl_ext; intro l; rewrite offset_offs; apply lbl_offset_index|]. rewrite B. symmetry. apply offs_S. exact Hk.
Qed.
Lemma fetch_end_spec : forall p c, encode p = Some c -> decode c (offset_of p (List.length p)) = Some (IEnd false).
Proof. intros p c H. rewrite offset_offs. apply encode_end. exact H. Qed.
Lemma lbl_index_aux_in : forall p l i acc, In l (labels p) -> exists k, lbl_index_aux p l i acc = i + k /\ nth_error p k = Some (ILabel l).
Proof.
  induction p as [|ins p IH]; intros l i acc H; [destruct H|].
  assert (G : forall acc, In l (labels p) -> exists k, lbl_index_aux p l (S i) acc = i + k /\ nth_error (ins :: p) k = Some (ILabel l)).
  { intros a Hl. destruct (IH l (S i) a Hl) as (k & E1 & E2). exists (S k). split; [lia|exact E2]. }
  destruct ins; cbn [labels lbl_index_aux] in *; try (apply G; exact H).
  destruct (Nat.eqb_spec l0 l) as [->|Hn]; [|destruct H as [H|H]; [congruence|apply G; exact H]].
  destruct (lbl_index_aux_pos p l (S i) i) as [(k & E1 & E2)|E].
  - exists (S k). split; [lia|exact E2].
  - exists 0. split; [lia|reflexivity].
Qed.
Lemma lbl_index_in : forall p l, In l (labels p) -> nth_error p (lbl_index p l) = Some (ILabel l).
Proof. intros p l H. unfold lbl_index. destruct (lbl_index_aux_in p l 0 0 H) as (k & E1 & E2). rewrite E1. exact E2. Qed.

Lemma equi_runs : forall bufsz T CS sa sb (st : mstate T CS), equi bufsz T CS False sa sb -> starts bufsz T CS False st ->
  same_runs (fun f => run sa f st) (fun f => run sb f st).
Proof.
  intros bufsz T CS sa sb st H Hs. destruct (H st Hs) as [A B]. split.
  - intros n x Hx. destruct (A _ _ Hx) as (m & y & Hy & R). exists m, y. split; [exact Hy|]. destruct x, y; cbn [rres same_result] in *; try tauto. destruct R as [R1 []]. auto.
  - intros n y Hy. destruct (B _ _ Hy) as (m & x & Hx & R). exists m, x. split; [exact Hx|]. destruct x, y; cbn [rres same_result] in *; try tauto. destruct R as [R1 []]. auto.
Qed.
Lemma starts_init : forall bufsz T (ops : table_ops T) CS intrvl s t (cs : CS), 0 < bufsz -> starts bufsz T CS False (init_state bufsz ops intrvl s t cs).
Proof. intros. split; [reflexivity|]. split; [reflexivity|]. split; [apply inv_new; assumption|intros []]. Qed.
Lemma encode_runs : forall bufsz T (ops : table_ops T) CS check intrvl p c s t (cs : CS),
  0 < bufsz -> encode p = Some c ->
  same_runs (fun f => run (sym_step bufsz ops check intrvl p) f (init_state bufsz ops intrvl s t cs))
            (fun f => vm_exec bufsz ops check intrvl f c s t cs).
Proof. intros. apply equi_runs with bufsz; [apply encode_equi; assumption|apply starts_init; assumption]. Qed.
Lemma optimize_runs : forall bufsz T (ops : table_ops T) CS check intrvl p s t (cs : CS),
  0 < bufsz -> (forall n, In (IAny n) p -> n = x01) -> (forall n l, In (ITestAny n l) p -> n = x01) ->
  same_runs (fun f => run (sym_step bufsz ops check intrvl p) f (init_state bufsz ops intrvl s t cs))
            (fun f => run (sym_step bufsz ops check intrvl (optimize p)) f (init_state bufsz ops intrvl s t cs)).
Proof.
  intros. apply equi_runs with bufsz; [apply optimize_equi|apply starts_init]; try assumption.
  - intros i Hi. destruct i; try exact I; cbn [okn]; [left|]; eauto.
  - apply notest_one; [intros n l Hn; eauto|assumption].
Qed.
