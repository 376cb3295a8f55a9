(** Encode succeeds exactly on the programs whose operands fit. *)
From Verif Require Import Base Model_Charset Model_Isa Model_Capture Model_Input Spec_Input Model_Code Model_VM Spec_Peg Spec_Run Spec_Encode Proof_Charset Proof_Encode Proof_Props1.
Local Open Scope nat_scope.

Lemma u8_some : forall x, (x < 256)%N -> exists bs, encode_u8 x = Some bs.
Proof. intros x H. unfold encode_u8. destruct (N.leb_spec 256 x); [lia|]. eauto. Qed.
Lemma u8_lt : forall x bs, encode_u8 x = Some bs -> (x < 256)%N.
Proof. intros x bs H. unfold encode_u8 in H. destruct (N.leb_spec 256 x); [discriminate|lia]. Qed.
Lemma u24_some : forall x, (x < 16777216)%N -> exists bs, encode_u24 x = Some bs.
Proof. intros x H. unfold encode_u24. destruct (N.leb_spec 16777216 x); [lia|]. eauto. Qed.
Lemma u24_lt : forall x bs, encode_u24 x = Some bs -> (x < 16777216)%N.
Proof. intros x bs H. unfold encode_u24 in H. destruct (N.leb_spec 16777216 x); [discriminate|lia]. Qed.
Lemma i16_some : forall x, (-32768 <= x < 32768)%Z -> exists bs, encode_i16 x = Some bs.
Proof. intros x H. unfold encode_i16. destruct (Z.ltb_spec x (-32768)); [lia|]. destruct (Z.leb_spec 32768 x); [lia|]. cbn. eauto. Qed.
Lemma i16_lt : forall x bs, encode_i16 x = Some bs -> (-32768 <= x < 32768)%Z.
Proof. intros x bs H. unfold encode_i16 in H. destruct (Z.ltb_spec x (-32768)); [discriminate|]. destruct (Z.leb_spec 32768 x); [discriminate|lia]. Qed.

Lemma find_idx_lt : forall A (eqb : A -> A -> bool) x l i, find_idx eqb x l = Some i -> i < List.length l.
Proof. intros A eqb x. induction l as [|y l IH]; intros i H; [discriminate|]. cbn in *. destruct (eqb x y); [injection H as <-; lia|]. destruct (find_idx eqb x l) as [j|]; [|discriminate]. injection H as <-. specialize (IH j eq_refl). lia. Qed.
Lemma find_idx_none : forall A (eqb : A -> A -> bool), (forall a, eqb a a = true) -> forall x l, find_idx eqb x l = None -> ~ In x l.
Proof. intros A eqb R x. induction l as [|y l IH]; intros H; [auto|]. cbn in *. destruct (eqb x y) eqn:E; [discriminate|]. destruct (find_idx eqb x l); [discriminate|]. intros [->|I]; [rewrite R in E; discriminate|]. exact (IH eq_refl I). Qed.
Lemma cs_eqb_refl : forall a, cs_eqb a a = true. Proof. intro a. apply cs_eqb_eq. reflexivity. Qed.

(** tables without repetitions *)
Definition clean (c : code) : Prop := NoDup (c_sets c) /\ NoDup (c_errors c).
Lemma NoDup_snoc : forall A (l : list A) x, NoDup l -> ~ In x l -> NoDup (l ++ [x]).
Proof. intros A l x H N. induction H as [|y l Hy H IH]; [constructor; [auto|constructor]|]. cbn. constructor; [intro I; apply in_app_iff in I as [I|[->|[]]]; [auto|apply N; left; reflexivity]|]. apply IH. intro I. apply N. right. exact I. Qed.
Lemma add_set_fits : forall c s k c', clean c -> add_set c s = (k, c') ->
  clean c' /\ c_sets c' = (if find_idx cs_eqb s (c_sets c) then c_sets c else c_sets c ++ [s]) /\ In s (c_sets c') /\ (k < N.of_nat (List.length (c_sets c')))%N /\
  (List.length (c_sets c) <= 256 -> (k < 256)%N -> List.length (c_sets c') <= 256) /\ c_errors c' = c_errors c /\ c_checkers c' = c_checkers c.
Proof.
  intros c s k c' [H1 H2] H. unfold add_set in H. destruct (find_idx cs_eqb s (c_sets c)) as [i|] eqn:E; injection H as <- <-; cbn [c_sets c_errors c_checkers].
  - destruct (find_idx_some _ _ _ _ E) as (y & Hy & Ey). apply cs_eqb_eq in Ey. subst y. pose proof (find_idx_lt _ _ _ _ _ E). repeat split; auto; [eapply nth_error_In; exact Hy|lia].
  - pose proof (find_idx_none _ _ cs_eqb_refl _ _ E). rewrite app_length. cbn [List.length]. split; [split; [apply NoDup_snoc; assumption|assumption]|]. repeat split; auto; [apply in_app_iff; right; left; reflexivity|lia|lia].
Qed.
Lemma add_error_fits : forall c s k c', clean c -> add_error c s = (k, c') ->
  clean c' /\ c_errors c' = (if find_idx String.eqb s (c_errors c) then c_errors c else c_errors c ++ [s]) /\ In s (c_errors c') /\ (k < N.of_nat (List.length (c_errors c')))%N /\
  ((N.of_nat (List.length (c_errors c)) <= 16777216)%N -> (k < 16777216)%N -> (N.of_nat (List.length (c_errors c')) <= 16777216)%N) /\ c_sets c' = c_sets c /\ c_checkers c' = c_checkers c.
Proof.
  intros c s k c' [H1 H2] H. unfold add_error in H. destruct (find_idx String.eqb s (c_errors c)) as [i|] eqn:E; injection H as <- <-; cbn [c_sets c_errors c_checkers].
  - destruct (find_idx_some _ _ _ _ E) as (y & Hy & Ey). apply String.eqb_eq in Ey. subst y. pose proof (find_idx_lt _ _ _ _ _ E). repeat split; auto; [eapply nth_error_In; exact Hy|lia].
  - pose proof (find_idx_none _ _ String.eqb_refl _ _ E). rewrite app_length. cbn [List.length]. split; [split; [assumption|apply NoDup_snoc; assumption]|]. repeat split; auto; [apply in_app_iff; right; left; reflexivity|lia|lia].
Qed.

(** one instruction *)
Definition fits (lbl : nat -> nat) (i : insn) : Prop :=
  (forall x, i <> IOpenCall x) /\ (forall id, In id (ids_of i) -> (-32768 <= id < 32768)%Z) /\ (forall l, In l (targets_of i) -> (N.of_nat (lbl l) < 16777216)%N).
Definition keep (c : code) (bs : list byte) : code := Code (c_sets c) (c_errors c) (c_checkers c) bs.
Lemma args_fit : forall lbl ss ms i c, fits lbl i -> clean c -> incl (c_sets c) ss -> incl (sets_of i) ss -> List.length ss <= 256 ->
  incl (c_errors c) ms -> incl (messages_of i) ms -> (N.of_nat (List.length ms) <= 16777216)%N ->
  (N.of_nat (List.length (c_checkers c) + List.length (checkers_of i)) <= 16777216)%N ->
  exists args c', encode_args lbl c i = Some (args, c') /\ clean c' /\ incl (c_sets c') ss /\ incl (c_errors c') ms /\ c_checkers c' = c_checkers c ++ checkers_of i.
Proof.
  intros lbl ss ms i c (F1 & F2 & F3) Hc S1 S2 S3 M1 M2 M3 K.
  assert (SET : forall s, sets_of i = [s] -> exists k c', add_set c s = (k, c') /\ (k < 256)%N /\ clean c' /\ incl (c_sets c') ss /\ c_errors c' = c_errors c /\ c_checkers c' = c_checkers c).
  { intros s Es. destruct (add_set c s) as [k c'] eqn:E. destruct (add_set_fits c s k c' Hc E) as (A1 & A2 & A3 & A4 & A5 & A6 & A7). exists k, c'.
    assert (I : incl (c_sets c') ss) by (rewrite A2; destruct (find_idx cs_eqb s (c_sets c)); [exact S1|]; intros y Hy; apply in_app_iff in Hy as [Hy|[<-|[]]]; [auto|apply S2; rewrite Es; left; reflexivity]).
    pose proof (NoDup_incl_length (proj1 A1) I). repeat split; auto; try apply A1; lia. }
  assert (MSG : forall s, messages_of i = [s] -> exists k c', add_error c s = (k, c') /\ (k < 16777216)%N /\ clean c' /\ incl (c_errors c') ms /\ c_sets c' = c_sets c /\ c_checkers c' = c_checkers c).
  { intros s Es. destruct (add_error c s) as [k c'] eqn:E. destruct (add_error_fits c s k c' Hc E) as (A1 & A2 & A3 & A4 & A5 & A6 & A7). exists k, c'.
    assert (I : incl (c_errors c') ms) by (rewrite A2; destruct (find_idx String.eqb s (c_errors c)); [exact M1|]; intros y Hy; apply in_app_iff in Hy as [Hy|[<-|[]]]; [auto|apply M2; rewrite Es; left; reflexivity]).
    pose proof (NoDup_incl_length (proj2 A1) I). repeat split; auto; try apply A1; lia. }
  assert (T : forall l, In l (targets_of i) -> exists bs, encode_u24 (N.of_nat (lbl l)) = Some bs) by (intros l Hl; apply u24_some; auto).
  assert (D : forall id, In id (ids_of i) -> exists bs, encode_i16 id = Some bs) by (intros id Hl; apply i16_some; auto).
  destruct i; cbn [encode_args sets_of ids_of targets_of messages_of checkers_of] in *; rewrite ?app_nil_r;
    try (destruct (F1 _ eq_refl));
    try (destruct (T _ (or_introl eq_refl)) as (bt & ->));
    try (destruct (D _ (or_intror (or_introl eq_refl))) as (bd2 & ->));
    try (destruct (D _ (or_introl eq_refl)) as (bd & ->));
    try (destruct (SET _ eq_refl) as (k & c' & -> & L & B1 & B2 & B3 & B4); destruct (u8_some _ L) as (bk & ->); cbn [obind]; do 2 eexists; split; [reflexivity|]; rewrite B3, B4; auto);
    try (destruct (MSG _ eq_refl) as (k & c' & -> & L & B1 & B2 & B3 & B4); destruct (u24_some _ L) as (bk & ->); cbn [obind]; do 2 eexists; split; [reflexivity|]; rewrite B3, B4; auto);
    cbn [obind]; try (do 2 eexists; split; [reflexivity|]; auto; fail).
  unfold add_checker. cbn [List.length] in K. destruct (u24_some (N.of_nat (List.length (c_checkers c)))) as (bk & ->); [lia|]. cbn [obind]. do 2 eexists. split; [reflexivity|]. cbn [c_sets c_errors c_checkers]. auto.
Qed.
Lemma args_fit_back : forall lbl i c args c', clean c -> encode_args lbl c i = Some (args, c') -> List.length (c_sets c) <= 256 ->
  (N.of_nat (List.length (c_errors c)) <= 16777216)%N -> (N.of_nat (List.length (c_checkers c)) <= 16777216)%N ->
  fits lbl i /\ clean c' /\ incl (c_sets c) (c_sets c') /\ incl (sets_of i) (c_sets c') /\ List.length (c_sets c') <= 256 /\
  incl (c_errors c) (c_errors c') /\ incl (messages_of i) (c_errors c') /\ (N.of_nat (List.length (c_errors c')) <= 16777216)%N /\
  c_checkers c' = c_checkers c ++ checkers_of i /\ (N.of_nat (List.length (c_checkers c')) <= 16777216)%N.
Proof.
  intros lbl i c args c' Hc H S M K.
  assert (NIL : forall A (l : list A), incl [] l) by (intros A l x []).
  assert (F0 : forall F : Prop, F -> F) by auto.
  destruct i; cbn [encode_args] in H; try discriminate H;
    repeat match type of H with (let (_, _) := ?x in _) = _ => let E := fresh "A" in destruct x as [? ?] eqn:E end; repeat (oinv H); injection H as <- <-;
    repeat match goal with
    | E : encode_u24 _ = _ |- _ => apply u24_lt in E
    | E : encode_i16 _ = _ |- _ => apply i16_lt in E
    | E : encode_u8 _ = _ |- _ => apply u8_lt in E
    end;
    (split; [split; [congruence|]; split; cbn [ids_of targets_of]; [intros ? I | intros ? I]; repeat (destruct I as [<-|I]; [lia|]); destruct I|]);
    cbn [sets_of messages_of checkers_of]; rewrite ?app_nil_r;
    try (split; [exact Hc|]; split; [apply incl_refl|]; split; [apply NIL|]; split; [exact S|]; split; [apply incl_refl|]; split; [apply NIL|]; split; [exact M|]; split; [reflexivity|exact K]);
    try (match goal with A : add_set _ ?s0 = _ |- _ => destruct (add_set_fits _ _ _ _ Hc A) as (A1 & A2 & A3 & A4 & A5 & A6 & A7) end;
      split; [exact A1|]; split; [rewrite A2; destruct find_idx; [apply incl_refl|apply incl_appl, incl_refl]|]; split; [intros y [<-|[]]; exact A3|]; split; [auto|]; rewrite A6, A7;
      split; [apply incl_refl|]; split; [apply NIL|]; split; [exact M|]; split; [reflexivity|exact K]).
  - unfold add_checker in A. injection A as <- <-. cbn [c_sets c_errors c_checkers].
    split; [exact Hc|]. split; [apply incl_refl|]. split; [apply NIL|]. split; [exact S|]. split; [apply incl_refl|]. split; [apply NIL|]. split; [exact M|]. split; [reflexivity|]. rewrite app_length. cbn [List.length]. lia.
  - destruct (add_error_fits _ _ _ _ Hc A) as (A1 & A2 & A3 & A4 & A5 & A6 & A7). rewrite A6, A7.
    split; [exact A1|]. split; [apply incl_refl|]. split; [apply NIL|]. split; [exact S|]. split; [rewrite A2; destruct find_idx; [apply incl_refl|apply incl_appl, incl_refl]|].
    split; [intros y [<-|[]]; exact A3|]. split; [auto|]. split; [reflexivity|exact K].
Qed.
(** the loop *)
Lemma loop_fit : forall lbl ss ms p c, Forall (fits lbl) p -> clean c -> incl (c_sets c) ss -> incl (flat_map sets_of p) ss -> List.length ss <= 256 ->
  incl (c_errors c) ms -> incl (flat_map messages_of p) ms -> (N.of_nat (List.length ms) <= 16777216)%N ->
  (N.of_nat (List.length (c_checkers c) + List.length (flat_map checkers_of p)) <= 16777216)%N -> exists c', encode_loop lbl p c = Some c'.
Proof.
  intros lbl ss ms. induction p as [|i p IH]; intros c F Hc S1 S2 S3 M1 M2 M3 K; cbn [encode_loop]; [eauto|]. inversion F as [|? ? Fi Fp]; subst. cbn [flat_map] in *.
  assert (S2' : incl (flat_map sets_of p) ss) by (intros y Hy; apply S2, in_app_iff; auto). assert (M2' : incl (flat_map messages_of p) ms) by (intros y Hy; apply M2, in_app_iff; auto). rewrite app_length in K.
  destruct (is_label_or_nop i) eqn:Ei; [apply IH; auto; lia|].
  destruct (args_fit lbl ss ms i c Fi Hc S1) as (args & c' & E & C1 & C2 & C3 & C4); auto; [intros y Hy; apply S2, in_app_iff; auto|intros y Hy; apply M2, in_app_iff; auto|lia|].
  rewrite E. apply IH; cbn [c_sets c_errors c_checkers]; auto. rewrite C4, app_length. lia.
Qed.
Lemma loop_fit_back : forall lbl p c c', encode_loop lbl p c = Some c' -> clean c -> List.length (c_sets c) <= 256 ->
  (N.of_nat (List.length (c_errors c)) <= 16777216)%N -> (N.of_nat (List.length (c_checkers c)) <= 16777216)%N ->
  Forall (fits lbl) p /\ incl (c_sets c) (c_sets c') /\ incl (flat_map sets_of p) (c_sets c') /\ List.length (c_sets c') <= 256 /\
  incl (c_errors c) (c_errors c') /\ incl (flat_map messages_of p) (c_errors c') /\ (N.of_nat (List.length (c_errors c')) <= 16777216)%N /\
  c_checkers c' = c_checkers c ++ flat_map checkers_of p /\ (N.of_nat (List.length (c_checkers c')) <= 16777216)%N.
Proof.
  intros lbl. induction p as [|i p IH]; intros c c' H Hc S M K; cbn [encode_loop] in H.
  - injection H as <-. cbn [flat_map]. rewrite app_nil_r. repeat split; auto; try (intros y []); try apply incl_refl.
  - assert (P : exists c1, encode_loop lbl p c1 = Some c' /\ clean c1 /\ fits lbl i /\ incl (c_sets c) (c_sets c1) /\ incl (sets_of i) (c_sets c1) /\ List.length (c_sets c1) <= 256 /\
      incl (c_errors c) (c_errors c1) /\ incl (messages_of i) (c_errors c1) /\ (N.of_nat (List.length (c_errors c1)) <= 16777216)%N /\
      c_checkers c1 = c_checkers c ++ checkers_of i /\ (N.of_nat (List.length (c_checkers c1)) <= 16777216)%N).
    { destruct (is_label_or_nop i) eqn:Ei.
      - exists c. destruct i; try discriminate Ei; cbn [sets_of messages_of checkers_of]; rewrite app_nil_r; repeat split; auto; try congruence; try (intros y []); try apply incl_refl; try apply Hc; try (cbn [ids_of targets_of In] in *; tauto).
      - destruct (encode_args lbl c i) as [[args c1]|] eqn:E; [|discriminate]. destruct (args_fit_back lbl i c args c1 Hc E S M K) as (A0 & A1 & A2 & A3 & A4 & A5 & A6 & A7 & A8 & A9).
        eexists. split; [exact H|]. cbn [c_sets c_errors c_checkers]. split; [exact A1|]. auto 12. }
    destruct P as (c1 & P & C1 & C0 & C2 & C3 & C4 & C5 & C6 & C7 & C8 & C9). destruct (IH c1 c' P C1 C4 C7 C9) as (B1 & B2 & B3 & B4 & B5 & B6 & B7 & B8 & B9).
    split; [constructor; assumption|]. split; [eapply incl_tran; eassumption|]. cbn [flat_map]. split; [apply incl_app; [eapply incl_tran; eassumption|exact B3]|]. split; [exact B4|].
    split; [eapply incl_tran; eassumption|]. split; [apply incl_app; [eapply incl_tran; eassumption|exact B6]|]. split; [exact B7|]. split; [rewrite B8, C8, <- app_assoc; reflexivity|exact B9].
Qed.

Lemma lbl_offset_of : forall p l, lbl_offset p l = offset_of p (lbl_index p l).
Proof. intros p l. rewrite offset_offs. apply lbl_offset_index. Qed.
Theorem encode_iff : forall p, (exists c, encode p = Some c) <-> encodable p.
Proof.
  intro p. unfold encode. split.
  - intros (c & H). destruct (encode_loop (lbl_offset p) p (Code [] [] [] [])) as [c'|] eqn:E; [|discriminate].
    destruct (loop_fit_back _ _ _ _ E) as (B1 & B2 & B3 & B4 & B5 & B6 & B7 & B8 & B9); [split; constructor|cbn; lia|cbn; lia|cbn; lia|]. rewrite Forall_forall in B1.
    split; [intros x I; exact (proj1 (B1 _ I) x eq_refl)|]. split; [intros i id I; exact (proj1 (proj2 (B1 _ I)) id)|].
    split; [intros i l I Hl; rewrite <- lbl_offset_of; exact (proj2 (proj2 (B1 _ I)) l Hl)|]. split; [eauto|]. split; [eauto|]. cbn [c_checkers app] in B8. rewrite <- B8. exact B9.
  - intros (H1 & H2 & H3 & (ss & H4 & H5) & (ms & H6 & H7) & H8). destruct (loop_fit (lbl_offset p) ss ms p (Code [] [] [] [])) as (c & ->); cbn [c_sets c_errors c_checkers]; auto; try (intros y []); [|split; constructor|eauto].
    apply Forall_forall. intros i I. split; [intros x ->; exact (H1 x I)|]. split; [intros id; apply (H2 i id I)|]. intros l Hl. rewrite lbl_offset_of. exact (H3 i l I Hl).
Qed.
