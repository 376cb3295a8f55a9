(** Encode then fetch gives back each instruction, and the machine on the bytecode does what the
    machine on the instruction list does. *)
From Verif Require Import Base Model_Charset Proof_Charset Model_Isa Model_Capture Model_Input Spec_Input Proof_Input Model_Code Model_VM Proof_Emit Proof_Sim Proof_Optimize.
From Coq Require Import String.
Local Open Scope nat_scope.
Arguments Nat.max : simpl never.

Lemma u8_rt : forall x bs, encode_u8 x = Some bs -> exists b, bs = [b] /\ bN b = x.
Proof. intros x bs H. unfold encode_u8 in H. destruct (N.leb_spec 256 x); [discriminate|]. injection H as <-. exists (N2b x). split; [reflexivity|]. apply bN_N2b. assumption. Qed.
Lemma bN_mod : forall x, bN (N2b x) = (x mod 256)%N.
Proof.
  intro x. unfold N2b. assert (H : (x mod 256 < 256)%N) by (apply N.mod_lt; discriminate).
  pose proof (bN_N2b (x mod 256)%N H) as E. unfold N2b in E. rewrite N.mod_mod in E by discriminate. exact E.
Qed.
Lemma shr8 : forall x, N.shiftr x 8 = (x / 256)%N.
Proof. intro x. rewrite N.shiftr_div_pow2. reflexivity. Qed.
Lemma le16 : forall u, (u < 65536)%N -> (bN (N2b u) + 256 * bN (N2b (N.shiftr u 8)) = u)%N.
Proof.
  intros u H. rewrite !bN_mod, shr8. rewrite (N.mod_small (u / 256)) by (apply N.div_lt_upper_bound; lia).
  pose proof (N.div_mod u 256). lia.
Qed.
Lemma i16_rt : forall x bs, encode_i16 x = Some bs -> exists a b, bs = [a; b] /\ forall r, decode_i16 (a :: b :: r) = Some x.
Proof.
  intros x bs H. unfold encode_i16 in H. destruct (Z.ltb_spec x (-32768)); [discriminate|]. destruct (Z.leb_spec 32768 x); [discriminate|].
  simpl orb in H. cbv iota in H. cbv zeta in H. injection H as <-. do 2 eexists. split; [reflexivity|]. intro r. unfold decode_i16, decode_u16.
  assert (Hb : (0 <= x mod 65536 < 65536)%Z) by (apply Z.mod_pos_bound; lia).
  rewrite le16 by lia. f_equal. rewrite Z2N.id by lia.
  destruct (N.ltb_spec (Z.to_N (x mod 65536)) 32768) as [L|L].
  - destruct (Z_lt_le_dec x 0) as [N0|N0]; [|apply Z.mod_small; lia].
    assert (E : (x mod 65536 = x + 65536)%Z) by (symmetry; apply Z.mod_unique with (-1)%Z; lia). lia.
  - destruct (Z_lt_le_dec x 0) as [N0|N0].
    + assert (E : (x mod 65536 = x + 65536)%Z) by (symmetry; apply Z.mod_unique with (-1)%Z; lia). lia.
    + rewrite Z.mod_small in * by lia. lia.
Qed.
Lemma some_inj : forall {A} (x y : A), Some x = Some y -> x = y. Proof. congruence. Qed.
Lemma u24_rt : forall x bs, encode_u24 x = Some bs -> exists a b c, bs = [a; b; c] /\ forall r, decode_u24 (a :: b :: c :: r) = Some x.
Proof.
  intros x bs H. unfold encode_u24 in H. destruct (N.leb_spec 16777216 x); [discriminate|]. cbv zeta in H. apply some_inj in H. subst bs.
  do 3 eexists. split; [reflexivity|]. intro r. unfold decode_u24, decode_u16.
  rewrite le16 by (apply N.mod_lt; discriminate). f_equal.
  assert (E : N.land (N.shiftr x 16) 255 = (x / 65536)%N).
  { change 255%N with (N.ones 8). rewrite N.land_ones, N.shiftr_div_pow2. change (2 ^ 16)%N with 65536%N. change (2 ^ 8)%N with 256%N.
    apply N.mod_small. apply N.div_lt_upper_bound; lia. }
  rewrite E, bN_N2b by (apply N.div_lt_upper_bound; lia).
  assert (E2 : (x mod 65536)%N = N.land x (N.ones 16)) by (rewrite N.land_ones; reflexivity).
  assert (E3 : N.shiftl (x / 65536) 16 = N.ldiff x (N.ones 16)).
  { rewrite N.ldiff_ones_r. rewrite N.shiftr_div_pow2. reflexivity. }
  rewrite E2, E3. apply N.bits_inj. intro n. rewrite N.lor_spec, N.ldiff_spec, N.land_spec. destruct (N.testbit x n), (N.testbit (N.ones 16) n); reflexivity.
Qed.

Lemma find_idx_some : forall {A} (eqb : A -> A -> bool) x l i, find_idx eqb x l = Some i -> exists y, nth_error l i = Some y /\ eqb x y = true.
Proof.
  induction l as [|y l IH]; intros i H; [discriminate|]. cbn [find_idx] in H. destruct (eqb x y) eqn:E.
  - injection H as <-. exists y. split; [reflexivity|exact E].
  - destruct (find_idx eqb x l) as [j|]; [|discriminate]. injection H as <-. apply IH. reflexivity.
Qed.

Definition pref {A} (a b : list A) : Prop := exists r, b = a ++ r.
Lemma pref_refl : forall {A} (a : list A), pref a a. Proof. intros A a. exists []. rewrite app_nil_r. reflexivity. Qed.
Lemma pref_trans : forall {A} (a b c : list A), pref a b -> pref b c -> pref a c.
Proof. intros A a b c (r & ->) (q & ->). exists (r ++ q). rewrite app_assoc. reflexivity. Qed.
Lemma pref_app : forall {A} (a r : list A), pref a (a ++ r). Proof. intros. exists r. reflexivity. Qed.
Lemma pref_nth : forall {A} (a b : list A) i x, pref a b -> nth_error a i = Some x -> nth_error b i = Some x.
Proof. intros A a b i x (r & ->) H. rewrite nth_error_app1; [exact H|]. apply nth_error_Some. congruence. Qed.
Record tabs (c d : code) : Prop := Tabs { t_sets : pref (c_sets c) (c_sets d); t_errs : pref (c_errors c) (c_errors d); t_chks : pref (c_checkers c) (c_checkers d) }.
Lemma tabs_refl : forall c, tabs c c. Proof. intro c. split; apply pref_refl. Qed.
Lemma tabs_trans : forall a b c, tabs a b -> tabs b c -> tabs a c.
Proof. intros a b c [] []. split; eapply pref_trans; eassumption. Qed.

Lemma add_set_ok : forall c s k c', add_set c s = (k, c') -> nth_error (c_sets c') (N.to_nat k) = Some s /\ tabs c c' /\ c_insns c' = c_insns c.
Proof.
  intros c s k c' H. unfold add_set in H. destruct (find_idx cs_eqb s (c_sets c)) as [i|] eqn:E; injection H as <- <-; rewrite Nat2N.id.
  - destruct (find_idx_some _ _ _ _ E) as (y & H1 & H2). apply cs_eqb_eq in H2. subst y. split; [exact H1|]. split; [apply tabs_refl|reflexivity].
  - cbn [c_sets c_insns]. split; [rewrite nth_error_app2, Nat.sub_diag by lia; reflexivity|]. split; [|reflexivity]. split; cbn; [apply pref_app|apply pref_refl|apply pref_refl].
Qed.
Lemma add_error_ok : forall c s k c', add_error c s = (k, c') -> nth_error (c_errors c') (N.to_nat k) = Some s /\ tabs c c' /\ c_insns c' = c_insns c.
Proof.
  intros c s k c' H. unfold add_error in H. destruct (find_idx String.eqb s (c_errors c)) as [i|] eqn:E; injection H as <- <-; rewrite Nat2N.id.
  - destruct (find_idx_some _ _ _ _ E) as (y & H1 & H2). apply String.eqb_eq in H2. subst y. split; [exact H1|]. split; [apply tabs_refl|reflexivity].
  - cbn [c_errors c_insns]. split; [rewrite nth_error_app2, Nat.sub_diag by lia; reflexivity|]. split; [|reflexivity]. split; cbn; [apply pref_refl|apply pref_app|apply pref_refl].
Qed.
Lemma add_checker_ok : forall c s k c', add_checker c s = (k, c') -> nth_error (c_checkers c') (N.to_nat k) = Some s /\ tabs c c' /\ c_insns c' = c_insns c.
Proof.
  intros c s k c' H. unfold add_checker in H. injection H as <- <-. rewrite Nat2N.id.
  cbn [c_checkers c_insns]. split; [rewrite nth_error_app2, Nat.sub_diag by lia; reflexivity|]. split; [|reflexivity]. split; cbn; [apply pref_refl|apply pref_refl|apply pref_app].
Qed.

Lemma obind_some : forall {A B} (o : option A) (f : A -> option B) y, obind o f = Some y -> exists x, o = Some x /\ f x = Some y.
Proof. intros A B [x|] f y H; [|discriminate]. exists x. auto. Qed.
Ltac oinv H := let x := fresh "bs" in let E := fresh "E" in apply obind_some in H; destruct H as (x & E & H).
Ltac rt E := first
  [ apply u24_rt in E; let H := fresh "R" in destruct E as (? & ? & ? & -> & H)
  | apply i16_rt in E; let H := fresh "R" in destruct E as (? & ? & -> & H)
  | apply u8_rt in E; let H := fresh "R" in destruct E as (? & -> & H) ].

(** fetching an encoded instruction *)
Lemma fetch : forall lbl c i args c' d ip rest, encode_args lbl c i = Some (args, c') -> is_label_or_nop i = false ->
  tabs c' d -> skipn ip (c_insns d) = insn_bytes (opcode i) args ++ rest ->
  decode d ip = Some (map_lbl lbl i).
Proof.
  intros lbl c i args c' d ip rest H Hi Ht Hs.
  assert (At : forall k, skipn (ip + k) (c_insns d) = skipn k (insn_bytes (opcode i) args ++ rest)) by (intro k; rewrite <- Hs; symmetry; apply skipn_skipn').
  destruct i; try discriminate Hi; cbn [encode_args] in H;
    try (injection H as <- <-; unfold decode; rewrite !At; reflexivity);
    repeat match type of H with (let (_, _) := ?x in _) = _ => let E := fresh "E" in destruct x as [? ?] eqn:E end;
    repeat (oinv H); try discriminate H; injection H as <- <-; repeat match goal with E : encode_u24 _ = _ |- _ => rt E | E : encode_i16 _ = _ |- _ => rt E | E : encode_u8 _ = _ |- _ => rt E end;
    unfold decode; rewrite !At; cbn [insn_bytes opcode List.length Nat.even app skipn decode_u8 obind map_lbl];
    repeat match goal with R : forall r, _ = Some _ |- _ => rewrite R; clear R end; cbn [obind]; rewrite ?Nat2N.id;
    repeat match goal with
    | E : add_set _ _ = _ |- _ => destruct (add_set_ok _ _ _ _ E) as (S1 & S2 & S3); clear E
    | E : add_error _ _ = _ |- _ => destruct (add_error_ok _ _ _ _ E) as (S1 & S2 & S3); clear E
    | E : add_checker _ _ = _ |- _ => destruct (add_checker_ok _ _ _ _ E) as (S1 & S2 & S3); clear E
    | R : bN _ = _ |- _ => rewrite R; clear R
    end; try (erewrite pref_nth; [|first [apply (t_sets _ _ Ht)|apply (t_errs _ _ Ht)|apply (t_chks _ _ Ht)]|eassumption]); try reflexivity.
  destruct fail; reflexivity.
Qed.
Lemma args_ok : forall lbl c i args c', encode_args lbl c i = Some (args, c') -> is_label_or_nop i = false ->
  List.length (insn_bytes (opcode i) args) = insn_size i /\ tabs c c' /\ c_insns c' = c_insns c /\ sz (map_lbl lbl i) = insn_size i.
Proof.
  intros lbl c i args c' H Hi.
  destruct i; try discriminate Hi; cbn [encode_args] in H;
    try (injection H as <- <-; split; [reflexivity|]; split; [apply tabs_refl|]; split; reflexivity);
    repeat match type of H with (let (_, _) := ?x in _) = _ => let E := fresh "E" in destruct x as [? ?] eqn:E end;
    repeat (oinv H); try discriminate H; injection H as <- <-; repeat match goal with E : encode_u24 _ = _ |- _ => rt E | E : encode_i16 _ = _ |- _ => rt E | E : encode_u8 _ = _ |- _ => rt E end;
    (split; [reflexivity || (destruct fail; reflexivity)|]);
    repeat match goal with
    | E : add_set _ _ = _ |- _ => destruct (add_set_ok _ _ _ _ E) as (S1 & S2 & S3); clear E
    | E : add_error _ _ = _ |- _ => destruct (add_error_ok _ _ _ _ E) as (S1 & S2 & S3); clear E
    | E : add_checker _ _ = _ |- _ => destruct (add_checker_ok _ _ _ _ E) as (S1 & S2 & S3); clear E
    end; (split; [assumption || apply tabs_refl|]; split; [assumption || reflexivity|reflexivity]).
Qed.

(** byte offset of the instruction at index [k] *)
Fixpoint offs (p : program) (k : nat) : nat :=
  match k, p with
  | S k, i :: p => insn_size i + offs p k
  | _, _ => 0
  end.
Lemma offs_S : forall p k i, nth_error p k = Some i -> offs p (S k) = offs p k + insn_size i.
Proof.
  induction p as [|j p IH]; intros [|k] i H; try discriminate.
  - injection H as ->. cbn [offs]. destruct p; cbn; lia.
  - cbn [nth_error] in H. change (insn_size j + offs p (S k) = insn_size j + offs p k + insn_size i). rewrite (IH _ _ H). lia.
Qed.
Lemma loop_ok : forall lbl p c c', encode_loop lbl p c = Some c' ->
  tabs c c' /\ List.length (c_insns c') = List.length (c_insns c) + offs p (List.length p) /\ pref (c_insns c) (c_insns c') /\
  forall d, tabs c' d -> pref (c_insns c') (c_insns d) -> forall k i, nth_error p k = Some i -> is_label_or_nop i = false ->
    decode d (List.length (c_insns c) + offs p k) = Some (map_lbl lbl i) /\ sz (map_lbl lbl i) = insn_size i.
Proof.
  intros lbl. induction p as [|i p IH]; intros c c' H; cbn [encode_loop] in H.
  - injection H as <-. split; [apply tabs_refl|]. split; [cbn; lia|]. split; [apply pref_refl|]. intros d _ _ [|k] i E; discriminate.
  - destruct (is_label_or_nop i) eqn:Ei.
    + destruct (IH _ _ H) as (H1 & H2 & H3 & H4). assert (Z : insn_size i = 0) by (destruct i; try discriminate; reflexivity).
      split; [exact H1|]. split; [cbn [List.length offs]; rewrite Z; exact H2|]. split; [exact H3|].
      intros d D1 D2 [|k] j E Ej; [injection E as ->; congruence|]. cbn [offs]. rewrite Z. apply H4; assumption.
    + destruct (encode_args lbl c i) as [[args c1]|] eqn:Ea; [|discriminate]. destruct (args_ok _ _ _ _ _ Ea Ei) as (A1 & A2 & A3 & A4).
      destruct (IH _ _ H) as (H1 & H2 & H3 & H4). clear IH. cbn [c_insns] in *. rewrite A3 in *.
      split; [eapply tabs_trans; [exact A2|]; destruct H1 as [B1 B2 B3]; split; assumption|].
      split; [cbn [List.length offs]; rewrite H2, app_length, A1; lia|].
      split; [eapply pref_trans; [apply pref_app|exact H3]|].
      intros d D1 D2 [|k] j E Ej.
      * injection E as ->. split; [|exact A4]. cbn [offs]. rewrite Nat.add_0_r.
        destruct (pref_trans _ _ _ H3 D2) as (r & Hr). apply (fetch lbl c j args c1 d _ r Ea Ei).
        -- eapply tabs_trans; [|exact D1]. destruct H1 as [B1 B2 B3]. split; assumption.
        -- rewrite Hr, <- app_assoc, skipn_app, skipn_all, Nat.sub_diag. reflexivity.
      * cbn [offs]. specialize (H4 d D1 D2 k j E Ej). rewrite app_length, A1 in H4. rewrite Nat.add_assoc. exact H4.
Qed.

Lemma lbl_off : forall q p l a, lbl_offset_aux q l (offs (p ++ q) (List.length p)) (offs (p ++ q) a) = offs (p ++ q) (lbl_index_aux q l (List.length p) a).
Proof.
  induction q as [|i q IH]; intros p l a; [reflexivity|].
  assert (Hn : nth_error (p ++ i :: q) (List.length p) = Some i) by (rewrite nth_error_app2, Nat.sub_diag by lia; reflexivity).
  pose proof (offs_S _ _ _ Hn) as Ho.
  assert (G : forall a, lbl_offset_aux q l (offs (p ++ i :: q) (List.length p) + insn_size i) (offs (p ++ i :: q) a) = offs (p ++ i :: q) (lbl_index_aux q l (S (List.length p)) a)).
  { intro a'. rewrite <- Ho. specialize (IH (p ++ [i]) l a'). rewrite <- app_assoc in IH. cbn [app] in IH. rewrite app_length in IH. cbn [List.length] in IH. rewrite Nat.add_1_r in IH. exact IH. }
  destruct i; try apply G. cbn [lbl_offset_aux lbl_index_aux]. cbn [insn_size] in G. rewrite Nat.add_0_r in G. destruct (l0 =? l); apply G.
Qed.
Lemma offs_0 : forall p, offs p 0 = 0. Proof. destruct p; reflexivity. Qed.
Lemma lbl_offset_index : forall p l, lbl_offset p l = offs p (lbl_index p l).
Proof. intros p l. pose proof (lbl_off p [] l 0) as H. cbn [app List.length] in H. rewrite !offs_0 in H. exact H. Qed.
Lemma lbl_index_le : forall p l, lbl_index p l <= List.length p.
Proof. intros p l. destruct (lbl_index_pos p l) as [H|H]; [|lia]. apply Nat.lt_le_incl. apply nth_error_Some. congruence. Qed.

(** C07: the bytecode of a program, fetched at the offset of each instruction *)
Theorem encode_fetch : forall p c, encode p = Some c -> forall k i, nth_error p k = Some i -> is_label_or_nop i = false ->
  decode c (offs p k) = Some (map_lbl (lbl_offset p) i) /\ sz (map_lbl (lbl_offset p) i) = insn_size i.
Proof.
  intros p c H k i Hk Hi. unfold encode in H. destruct (encode_loop _ p _) as [c'|] eqn:E; [|discriminate]. injection H as <-.
  destruct (loop_ok _ _ _ _ E) as (_ & _ & _ & G). apply (G _); [split; apply pref_refl|apply pref_app|exact Hk|exact Hi].
Qed.
Lemma encode_end : forall p c, encode p = Some c -> decode c (offs p (List.length p)) = Some (IEnd false).
Proof.
  intros p c H. unfold encode in H. destruct (encode_loop _ p _) as [c'|] eqn:E; [|discriminate]. injection H as <-.
  destruct (loop_ok _ _ _ _ E) as (_ & L & _ & _). cbn [c_insns List.length] in L. unfold decode. cbn [c_insns].
  assert (At : forall k, skipn (offs p (List.length p) + k) (c_insns c' ++ [x13; x00]) = skipn k [x13; x00]).
  { intro k. rewrite skipn_app. rewrite skipn_all2 by lia. cbn [app]. f_equal. lia. }
  rewrite !At. reflexivity.
Qed.

Section Bytes.
Variable bufsz : nat.
Hypothesis Hbuf : 0 < bufsz.
Variable T : Type.
Variable ops : table_ops T.
Variable CS : Type.
Variable check : nat -> CS -> list byte -> list byte -> nat -> Z -> Z -> CS * option nat.
Variable intrvl : option (nat * nat).
Notation mstate := (mstate T CS).
Notation step := (sym_step bufsz ops check intrvl).

Lemma walk_off : forall p n t, n = List.length p - t -> t <= List.length p -> exists v, t <= v <= List.length p /\ offs p v = offs p t /\
  (v = List.length p \/ exists i, nth_error p v = Some i /\ is_label_or_nop i = false) /\
  forall n st r, m_ip st = t -> reach (step p) n (set_ip v st) r -> exists n', reach (step p) n' st r.
Proof.
  intros p. induction n as [|n IH]; intros t Hn Ht.
  - exists t. split; [lia|]. split; [reflexivity|]. split; [left; lia|]. intros n st r <- H. exists n. destruct st; exact H.
  - destruct (nth_error p t) as [i|] eqn:Ei; [|apply nth_error_None in Ei; lia]. destruct (is_label_or_nop i) eqn:El.
    + destruct (IH (S t)) as (v & H1 & H2 & H3 & H4); [lia|lia|]. exists v. split; [lia|].
      split; [rewrite H2, (offs_S _ _ _ Ei); destruct i; try discriminate; cbn; lia|]. split; [exact H3|].
      intros m st r Hst Hr. destruct (H4 m (set_ip (S t) st) r eq_refl) as (n' & Hn').
      * destruct st; exact Hr.
      * exists (S n'). eapply reach_more; [|exact Hn']. rewrite (sym_some bufsz T ops CS check intrvl p st i) by (rewrite Hst; exact Ei). rewrite El, Hst. reflexivity.
    + exists t. split; [lia|]. split; [reflexivity|]. split; [right; eauto|]. intros m st r <- H. exists m. destruct st; exact H.
Qed.

(** C07: running the bytecode is running the instruction list *)
Theorem encode_equi : forall (W : Prop) p c, encode p = Some c -> equi bufsz T CS W (step p) (vm_step bufsz ops check intrvl c).
Proof.
  intros W p c Hc. set (rho := fun x y : nat => x <= List.length p /\ y = offs p x).
  assert (Hl : forall l, rho (lbl_index p l) (lbl_offset p l)) by (intro l; split; [apply lbl_index_le|apply lbl_offset_index]).
  apply equi_sync with True rho; [split; [lia|destruct p; reflexivity]|].
  intros a b [Hs [Hx Hy]]. destruct (walk_off p _ (m_ip a) eq_refl Hx) as (v & V1 & V2 & V3 & V4).
  set (a1 := set_ip v a).
  assert (Hs1 : stR bufsz T CS W True rho a1 b) by (destruct Hs; split; assumption).
  assert (R1 : rho v (m_ip b)) by (split; [lia|congruence]).
  assert (G : exists ra rb, step p a1 = ra /\ vm_step bufsz ops check intrvl c b = rb /\ sres (rel bufsz T CS W True rho) (finR bufsz T CS W) ra rb).
  { do 2 eexists. split; [reflexivity|]. split; [reflexivity|]. destruct V3 as [V3|(i & Hi & Li)].
    - unfold vm_step. rewrite Hy, <- V2, V3, (encode_end _ _ Hc). unfold sym_step, a1. cbn [m_ip set_ip]. rewrite V3.
      assert (N : nth_error p (List.length p) = None) by (apply nth_error_None; lia). rewrite N, Nat.eqb_refl. cbn [exec_d]. cbn [sres].
      split; [rewrite <- V3; apply finish_R with (1 := Hs1)|]. rewrite <- V3. eapply stR_fin. exact Hs1.
    - unfold vm_step. rewrite Hy, <- V2. destruct (encode_fetch _ _ Hc _ _ Hi Li) as [D1 D2]. rewrite D1, D2.
      rewrite (sym_some bufsz T ops CS check intrvl p a1 i) by exact Hi. rewrite Li.
      apply resR_sres with (ia := m_ip a1) (ib := m_ip b); [exact R1|]. apply exec_R; auto.
      intros _. split; [|cbn [a1 m_ip set_ip]; symmetry; apply offs_S; exact Hi]. cbn [a1 m_ip set_ip]. assert (v < List.length p) by (apply nth_error_Some; congruence). lia. }
  destruct G as (ra & rb & G1 & G2 & G3). destruct (V4 1 a ra eq_refl (reach_one _ _ _ G1)) as (n & N).
  exists n, 1, ra, rb. split; [exact N|]. split; [constructor; exact G2|exact G3].
Qed.
End Bytes.
