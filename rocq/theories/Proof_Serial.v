(** Proofs about serialization. *)
From Coq Require Import Permutation ZArith Ascii String.
From Verif Require Import Base Model_Charset Model_Isa Model_Capture Model_Code Model_VM Model_Pattern Model_Rxconv Model_Checker Model_Serial Spec_Serial.
Local Open Scope nat_scope.
From Coq Require Import ZifyN Zify.
Ltac Zify.zify_post_hook ::= Z.to_euclidean_division_equations.

(** * UTF-8 *)
Lemma lead_cases : forall b, match lead b with
  | None => True
  | Some (k, lo, hi) => (k = 1%nat /\ bN b < 0x80)%N \/ (k = 2%nat /\ lo = 0x80 /\ hi = 0xBF /\ 0xC2 <= bN b < 0xE0)%N
     \/ (k = 3%nat /\ ((lo = 0xA0 /\ hi = 0xBF /\ bN b = 0xE0) \/ (lo = 0x80 /\ hi = 0x9F /\ bN b = 0xED) \/ (lo = 0x80 /\ hi = 0xBF /\ 0xE0 < bN b < 0xF0 /\ bN b <> 0xED)))%N
     \/ (k = 4%nat /\ ((lo = 0x90 /\ hi = 0xBF /\ bN b = 0xF0) \/ (lo = 0x80 /\ hi = 0xBF /\ 0xF0 < bN b < 0xF4) \/ (lo = 0x80 /\ hi = 0x8F /\ bN b = 0xF4)))%N
  end.
Proof.
  intro b. unfold lead. cbv zeta.
  destruct (N.ltb_spec (bN b) 0x80); [left; split; [reflexivity|lia]|].
  destruct (N.ltb_spec (bN b) 0xC2); [exact Logic.I|].
  destruct (N.ltb_spec (bN b) 0xE0); [right; left; repeat split; lia|].
  destruct (N.eqb_spec (bN b) 0xE0); [right; right; left; split; [reflexivity|]; left; repeat split; lia|].
  destruct (N.eqb_spec (bN b) 0xED); [right; right; left; split; [reflexivity|]; right; left; repeat split; lia|].
  destruct (N.ltb_spec (bN b) 0xF0); [right; right; left; split; [reflexivity|]; right; right; repeat split; lia|].
  destruct (N.eqb_spec (bN b) 0xF0); [right; right; right; split; [reflexivity|]; left; repeat split; lia|].
  destruct (N.ltb_spec (bN b) 0xF4); [right; right; right; split; [reflexivity|]; right; left; repeat split; lia|].
  destruct (N.eqb_spec (bN b) 0xF4); [right; right; right; split; [reflexivity|]; right; right; repeat split; lia|].
  exact Logic.I.
Qed.

Lemma within_iff : forall lo hi b, within lo hi b = true <-> (lo <= bN b <= hi)%N.
Proof.
  intros. unfold within. rewrite andb_true_iff, !N.leb_le. lia.
Qed.

Lemma N2b_is : forall n b, bN b = n -> N2b n = b.
Proof. intros n b <-. apply N2b_bN. Qed.

Lemma utf8_2 : forall b0 b1, (0xC2 <= bN b0 < 0xE0)%N -> (0x80 <= bN b1 <= 0xBF)%N ->
  exists r, valid_rune r /\ utf8 r = [b0; b1].
Proof.
  intros b0 b1 H0 H1. set (x := bN b0) in *. set (y := bN b1) in *. exists ((x - 0xC0) * 64 + (y - 0x80))%N. split.
  - unfold valid_rune. lia.
  - unfold utf8. destruct (N.ltb_spec ((x - 0xC0) * 64 + (y - 0x80)) 0x80); [lia|].
    destruct (N.ltb_spec ((x - 0xC0) * 64 + (y - 0x80)) 0x800); [|lia].
    rewrite (N2b_is _ b0), (N2b_is _ b1); [reflexivity|subst x y; lia|subst x y; lia].
Qed.
Lemma utf8_3 : forall b0 b1 b2 lo hi,
  ((lo = 0xA0 /\ hi = 0xBF /\ bN b0 = 0xE0) \/ (lo = 0x80 /\ hi = 0x9F /\ bN b0 = 0xED) \/ (lo = 0x80 /\ hi = 0xBF /\ 0xE0 < bN b0 < 0xF0 /\ bN b0 <> 0xED))%N ->
  (lo <= bN b1 <= hi)%N -> (0x80 <= bN b2 <= 0xBF)%N -> exists r, valid_rune r /\ utf8 r = [b0; b1; b2].
Proof.
  intros b0 b1 b2 lo hi H0 H1 H2. set (x := bN b0) in *. set (y := bN b1) in *. set (z := bN b2) in *.
  set (r := ((x - 0xE0) * 4096 + (y - 0x80) * 64 + (z - 0x80))%N).
  assert (V : valid_rune r /\ (0x800 <= r < 0x10000)%N) by (unfold valid_rune, r; lia).
  exists r. split; [apply V|]. unfold utf8, surrogate. destruct V as [[V1 V2] V3].
  destruct (N.ltb_spec r 0x80); [lia|]. destruct (N.ltb_spec r 0x800); [lia|].
  destruct (N.leb_spec 0xD800 r), (N.leb_spec r 0xDFFF), (N.ltb_spec 0x10FFFF r); simpl andb; simpl orb; try lia;
  (destruct (N.ltb_spec r 0x10000); [|lia]);
  (rewrite (N2b_is _ b0), (N2b_is _ b1), (N2b_is _ b2); [reflexivity|subst r x y z; lia|subst r x y z; lia|subst r x y z; lia]).
Qed.
Lemma utf8_4 : forall b0 b1 b2 b3 lo hi,
  ((lo = 0x90 /\ hi = 0xBF /\ bN b0 = 0xF0) \/ (lo = 0x80 /\ hi = 0xBF /\ 0xF0 < bN b0 < 0xF4) \/ (lo = 0x80 /\ hi = 0x8F /\ bN b0 = 0xF4))%N ->
  (lo <= bN b1 <= hi)%N -> (0x80 <= bN b2 <= 0xBF)%N -> (0x80 <= bN b3 <= 0xBF)%N -> exists r, valid_rune r /\ utf8 r = [b0; b1; b2; b3].
Proof.
  intros b0 b1 b2 b3 lo hi H0 H1 H2 H3. set (x := bN b0) in *. set (y := bN b1) in *. set (z := bN b2) in *. set (w := bN b3) in *.
  set (r := ((x - 0xF0) * 262144 + (y - 0x80) * 4096 + (z - 0x80) * 64 + (w - 0x80))%N).
  assert (V : valid_rune r /\ (0x10000 <= r)%N) by (unfold valid_rune, r; lia).
  exists r. split; [apply V|]. unfold utf8, surrogate. destruct V as [[V1 V2] V3].
  destruct (N.ltb_spec r 0x80); [lia|]. destruct (N.ltb_spec r 0x800); [lia|].
  destruct (N.leb_spec 0xD800 r), (N.leb_spec r 0xDFFF), (N.ltb_spec 0x10FFFF r); simpl andb; simpl orb; try lia;
  (destruct (N.ltb_spec r 0x10000); [lia|]);
  (rewrite (N2b_is _ b0), (N2b_is _ b1), (N2b_is _ b2), (N2b_is _ b3);
   [reflexivity|subst r x y z w; lia|subst r x y z w; lia|subst r x y z w; lia|subst r x y z w; lia]).
Qed.

Lemma valid_nil : valid_utf8 [].
Proof. exists []. split; constructor. Qed.
Lemma valid_cons : forall r s, valid_rune r -> valid_utf8 s -> valid_utf8 (utf8 r ++ s).
Proof. intros r s H (rs & A & ->). exists (r :: rs). split; [constructor; assumption|reflexivity]. Qed.

Lemma coerce_bad_valid : forall s, valid_utf8 s -> valid_utf8 (xef :: xbf :: xbd :: s).
Proof.
  intros s H. change (xef :: xbf :: xbd :: s) with (utf8 0xFFFD ++ s). apply valid_cons; [unfold valid_rune; lia|exact H].
Qed.

Lemma coerce_valid_n : forall n s, List.length s <= n -> valid_utf8 (coerce s).
Proof.
  induction n; intros s L.
  - destruct s; [apply valid_nil|simpl in L; lia].
  - destruct s as [|b0 r]; [apply valid_nil|]. simpl in L.
    assert (B : valid_utf8 (xef :: xbf :: xbd :: coerce r)) by (apply coerce_bad_valid, IHn; lia).
    cbn [coerce]. cbv zeta. pose proof (lead_cases b0) as C. destruct (lead b0) as [[[k lo] hi]|]; [|exact B].
    destruct C as [[-> C]|[(-> & -> & -> & C)|[[-> C]|[-> C]]]].
    + change (b0 :: coerce r) with ([b0] ++ coerce r). assert (E : utf8 (bN b0) = [b0]).
      { unfold utf8. destruct (N.ltb_spec (bN b0) 0x80); [|lia]. rewrite N2b_bN. reflexivity. }
      rewrite <- E. apply valid_cons; [unfold valid_rune; lia|apply IHn; lia].
    + destruct r as [|b1 r]; [exact B|]. destruct (within 0x80 0xBF b1) eqn:W; [|exact B]. apply within_iff in W.
      destruct (utf8_2 b0 b1 C W) as (u & V & E). change (valid_utf8 ([b0; b1] ++ coerce r)). rewrite <- E.
      apply valid_cons; [exact V|]. apply IHn. simpl in L. lia.
    + destruct r as [|b1 [|b2 r]]; try exact B. destruct (within lo hi b1) eqn:W, (cont b2) eqn:W2; try exact B.
      apply within_iff in W. apply within_iff in W2.
      destruct (utf8_3 b0 b1 b2 lo hi C W W2) as (u & V & E). change (valid_utf8 ([b0; b1; b2] ++ coerce r)). rewrite <- E.
      apply valid_cons; [exact V|]. apply IHn. simpl in L. lia.
    + destruct r as [|b1 [|b2 [|b3 r]]]; try exact B. destruct (within lo hi b1) eqn:W, (cont b2) eqn:W2, (cont b3) eqn:W3; try exact B.
      apply within_iff in W. apply within_iff in W2. apply within_iff in W3.
      destruct (utf8_4 b0 b1 b2 b3 lo hi C W W2 W3) as (u & V & E). change (valid_utf8 ([b0; b1; b2; b3] ++ coerce r)). rewrite <- E.
      apply valid_cons; [exact V|]. apply IHn. simpl in L. lia.
Qed.
Lemma coerce_valid : forall s, valid_utf8 (coerce s).
Proof. intro s. apply (coerce_valid_n (List.length s)). lia. Qed.

Lemma lead_1 : forall n, (n < 0x80)%N -> lead (N2b n) = Some (1, 0%N, 0%N).
Proof. intros n H. unfold lead. rewrite bN_N2b by lia. destruct (N.ltb_spec n 0x80); [reflexivity|lia]. Qed.
Lemma lead_2 : forall n, (0xC2 <= n < 0xE0)%N -> lead (N2b n) = Some (2, 0x80%N, 0xBF%N).
Proof.
  intros n H. unfold lead. rewrite bN_N2b by lia. destruct (N.ltb_spec n 0x80); [lia|].
  destruct (N.ltb_spec n 0xC2); [lia|]. destruct (N.ltb_spec n 0xE0); [reflexivity|lia].
Qed.
Lemma lead_3 : forall n, (0xE0 <= n < 0xF0)%N ->
  lead (N2b n) = Some (3, (if n =? 0xE0 then 0xA0 else 0x80)%N, (if n =? 0xED then 0x9F else 0xBF)%N).
Proof.
  intros n H. unfold lead. rewrite bN_N2b by lia. destruct (N.ltb_spec n 0x80); [lia|].
  destruct (N.ltb_spec n 0xC2); [lia|]. destruct (N.ltb_spec n 0xE0); [lia|].
  destruct (N.eqb_spec n 0xE0) as [->|]; [reflexivity|]. destruct (N.eqb_spec n 0xED); [reflexivity|].
  destruct (N.ltb_spec n 0xF0); [reflexivity|lia].
Qed.
Lemma lead_4 : forall n, (0xF0 <= n <= 0xF4)%N ->
  lead (N2b n) = Some (4, (if n =? 0xF0 then 0x90 else 0x80)%N, (if n =? 0xF4 then 0x8F else 0xBF)%N).
Proof.
  intros n H. unfold lead. rewrite bN_N2b by lia. destruct (N.ltb_spec n 0x80); [lia|].
  destruct (N.ltb_spec n 0xC2); [lia|]. destruct (N.ltb_spec n 0xE0); [lia|].
  destruct (N.eqb_spec n 0xE0); [lia|]. destruct (N.eqb_spec n 0xED); [lia|].
  destruct (N.ltb_spec n 0xF0); [lia|]. destruct (N.eqb_spec n 0xF0) as [->|]; [reflexivity|].
  destruct (N.ltb_spec n 0xF4).
  - destruct (N.eqb_spec n 0xF4); [lia|reflexivity].
  - destruct (N.eqb_spec n 0xF4); [reflexivity|lia].
Qed.
Lemma within_N2b : forall lo hi n, (n < 256)%N -> (lo <= n <= hi)%N -> within lo hi (N2b n) = true.
Proof. intros. apply within_iff. rewrite bN_N2b by assumption. assumption. Qed.

Lemma coerce_rune : forall r s, valid_rune r -> coerce (utf8 r ++ s) = utf8 r ++ coerce s.
Proof.
  intros r s [V1 V2]. unfold utf8, surrogate. destruct (N.ltb_spec r 0x80) as [A|A].
  { cbn [app coerce]. cbv zeta. rewrite lead_1 by lia. reflexivity. }
  destruct (N.ltb_spec r 0x800) as [B|B].
  { cbn [app coerce]. cbv zeta. rewrite lead_2 by lia. rewrite within_N2b by lia. reflexivity. }
  replace ((0xD800 <=? r) && (r <=? 0xDFFF) || (0x10FFFF <? r))%N with false.
  2:{ symmetry. apply orb_false_iff. split; [|apply N.ltb_ge; lia]. apply andb_false_iff.
      destruct (N.leb_spec 0xD800 r); [right; apply N.leb_gt; lia|left; reflexivity]. }
  destruct (N.ltb_spec r 0x10000) as [C|C].
  { cbn [app coerce]. cbv zeta. rewrite lead_3 by lia. unfold cont. rewrite !within_N2b; [reflexivity|lia|lia|lia|].
    destruct (N.eqb_spec (0xE0 + r / 4096) 0xE0), (N.eqb_spec (0xE0 + r / 4096) 0xED); lia. }
  cbn [app coerce]. cbv zeta. rewrite lead_4 by lia. unfold cont. rewrite !within_N2b; [reflexivity|lia|lia|lia|lia|lia|].
  destruct (N.eqb_spec (0xF0 + r / 262144) 0xF0), (N.eqb_spec (0xF0 + r / 262144) 0xF4); lia.
Qed.

Lemma coerce_id : forall s, coerce s = s <-> valid_utf8 s.
Proof.
  intro s. split.
  - intros <-. apply coerce_valid.
  - intros (rs & F & ->). induction F as [|r rs V F IH]; [reflexivity|]. unfold utf8s in *. cbn [flat_map].
    rewrite coerce_rune by exact V. rewrite IH. reflexivity.
Qed.

(** * base64 *)
Lemma b64_value_char : forall n, (n < 64)%N -> b64_value (b64_char n) = Some n /\ byte_eqb (b64_char n) b64_pad = false.
Proof.
  assert (A : forallb (fun i => match b64_value (b64_char (N.of_nat i)) with Some m => (m =? N.of_nat i)%N | None => false end
     && negb (byte_eqb (b64_char (N.of_nat i)) b64_pad)) (seq 0 64) = true) by (vm_compute; reflexivity).
  rewrite forallb_forall in A. intros n H. specialize (A (N.to_nat n)). rewrite N2Nat.id in A.
  assert (I : In (N.to_nat n) (seq 0 64)) by (apply in_seq; lia). apply A in I. apply andb_true_iff in I.
  destruct I as [I1 I2]. destruct (b64_value (b64_char n)) as [m|]; [|discriminate]. apply N.eqb_eq in I1. subst m.
  split; [reflexivity|]. destruct (byte_eqb (b64_char n) b64_pad); [discriminate|reflexivity].
Qed.
Lemma b64_v : forall n, (n < 64)%N -> b64_value (b64_char n) = Some n.
Proof. apply b64_value_char. Qed.
Lemma b64_np : forall n, (n < 64)%N -> byte_eqb (b64_char n) b64_pad = false.
Proof. apply b64_value_char. Qed.

Lemma b64_round_n : forall k s, List.length s <= k -> b64_decode (b64_encode s) = Some s.
Proof.
  induction k; intros s L.
  - destruct s; [reflexivity|simpl in L; lia].
  - destruct s as [|a [|b [|c r]]]; [reflexivity| | |].
    + pose proof (bN_lt a). cbn [b64_encode b64_decode]. cbv zeta. rewrite !b64_v by lia.
      rewrite !byte_eqb_refl. cbn [andb is_nil]. rewrite (N2b_is _ a) by lia. reflexivity.
    + pose proof (bN_lt a). pose proof (bN_lt b). cbn [b64_encode b64_decode]. cbv zeta. rewrite !b64_v by lia.
      rewrite b64_np by lia. rewrite !byte_eqb_refl. cbn [andb is_nil]. rewrite (N2b_is _ a), (N2b_is _ b) by lia. reflexivity.
    + pose proof (bN_lt a). pose proof (bN_lt b). pose proof (bN_lt c). cbn [b64_encode b64_decode]. cbv zeta. rewrite !b64_v by lia.
      rewrite !b64_np by lia. rewrite IHk by (simpl in L; lia).
      rewrite (N2b_is _ a), (N2b_is _ b), (N2b_is _ c) by lia. reflexivity.
Qed.
Lemma b64_round : forall s, b64_decode (b64_encode s) = Some s.
Proof. intro s. apply (b64_round_n (List.length s)). lia. Qed.

(** * JSON *)
Lemma un_set_json : forall s, cs_wf s -> un_set (set_json s) zero_set = (s, false).
Proof.
  intros s (A & B & C & D). unfold un_set, set_json. cbn [fold_left].
  replace (bytes_eqb (bytes_of "Bits") (bytes_of "Bits")) with true by reflexivity.
  unfold un_array4. cbn [nth_error]. unfold un_uint64.
  apply N.ltb_lt in A, B, C, D. rewrite A, B, C, D. destruct s; reflexivity.
Qed.
Lemma un_sets : forall l, Forall cs_wf l -> un_list un_set zero_set (map set_json l) = (l, false).
Proof.
  induction 1 as [|s l H F IH]; [reflexivity|]. cbn [map un_list]. rewrite un_set_json by exact H. rewrite IH. reflexivity.
Qed.
Lemma un_strings : forall l, un_list un_string [] (map (fun s => JStr (coerce s)) l) = (map coerce l, false).
Proof. induction l; [reflexivity|]. cbn [map un_list un_string]. rewrite IHl. reflexivity. Qed.

Lemma from_to : forall c, Forall cs_wf (g_sets c) -> forall j, to_json c = Some j ->
  exists ks, all_some (map checker_json (g_checkers c)) = Some ks /\
  from_json j = (GCode (g_sets c) (map coerce (g_errors c)) (fst (un_list un_checker None ks)) (g_insns c), snd (un_list un_checker None ks)).
Proof.
  intros c W j H. unfold to_json in H. destruct (all_some _) as [ks|]; [|discriminate]. injection H as <-. exists ks. split; [reflexivity|].
  unfold from_json. cbn [fold_left].
  unfold un_field at 4.
  replace (bytes_eqb (bytes_of "Sets") (bytes_of "Sets")) with true by reflexivity.
  unfold slice_json at 1. cbn [andb]. unfold un_slice. rewrite un_sets by exact W. cbn [zero_code g_sets g_errors g_checkers g_insns orb].
  unfold un_field at 3.
  replace (bytes_eqb (bytes_of "Errors") (bytes_of "Sets")) with false by reflexivity.
  replace (bytes_eqb (bytes_of "Errors") (bytes_of "Errors")) with true by reflexivity.
  assert (E1 : forall v, un_slice un_string [] (slice_json true (map (fun s => JStr (coerce s)) (g_errors c))) v = (map coerce (g_errors c), false)).
  { intro v. unfold slice_json. destruct (g_errors c) as [|m l]; [reflexivity|].
    cbn [is_nil map andb]. unfold un_slice. exact (un_strings (m :: l)). }
  rewrite E1. cbn [g_sets g_errors g_checkers g_insns orb].
  unfold un_field at 2.
  replace (bytes_eqb (bytes_of "Checkers") (bytes_of "Sets")) with false by reflexivity.
  replace (bytes_eqb (bytes_of "Checkers") (bytes_of "Errors")) with false by reflexivity.
  replace (bytes_eqb (bytes_of "Checkers") (bytes_of "Checkers")) with true by reflexivity.
  assert (E2 : forall v, un_slice un_checker None (slice_json true ks) v = un_list un_checker None ks).
  { intro v. destruct ks; reflexivity. }
  rewrite E2. destruct (un_list un_checker None ks) as [v e]. cbn [g_sets g_errors g_checkers g_insns orb fst snd].
  unfold un_field.
  replace (bytes_eqb (bytes_of "Insns") (bytes_of "Sets")) with false by reflexivity.
  replace (bytes_eqb (bytes_of "Insns") (bytes_of "Errors")) with false by reflexivity.
  replace (bytes_eqb (bytes_of "Insns") (bytes_of "Checkers")) with false by reflexivity.
  replace (bytes_eqb (bytes_of "Insns") (bytes_of "Insns")) with true by reflexivity.
  unfold un_bytes. rewrite b64_round. cbn [g_sets g_errors g_checkers g_insns]. rewrite orb_false_r. reflexivity.
Qed.

Lemma un_none : forall ks, Forall (eq None) (fst (un_list un_checker None ks)).
Proof.
  induction ks as [|j ks IH]; [constructor|]. cbn [un_list]. destruct (un_checker j None) as [a e] eqn:E.
  destruct (un_list un_checker None ks). constructor; [|exact IH]. destruct j; simpl in E; congruence.
Qed.

Lemma map_id_iff : forall A (f : A -> A) l, map f l = l <-> Forall (fun x => f x = x) l.
Proof.
  intros A f l. induction l as [|x l IH]; [split; [constructor|reflexivity]|]. cbn [map]. split.
  - intro H. injection H as H1 H2. constructor; [exact H1|]. apply IH, H2.
  - intro H. inversion_clear H. f_equal; [assumption|]. apply IH. assumption.
Qed.

(** * The parts of an encoded program *)
Lemma find_idx_none : forall p c c' lbl, encode_loop lbl p c = Some c' ->
  c_checkers c' = c_checkers c ++ flat_map (fun i => match i with ICheckEnd k => [k] | _ => [] end) p /\
  (forall m, In m (c_errors c') <-> In m (c_errors c) \/ In (IError m) p) /\
  (forall s, In s (c_sets c') -> In s (c_sets c) \/ has_set p s).
Proof.
  induction p as [|i p IH]; intros c c' lbl H; cbn [encode_loop] in H.
  - injection H as <-. split; [symmetry; apply app_nil_r|]. split; [intro m; simpl; tauto|]. intros s Hs. left; exact Hs.
  - destruct (is_label_or_nop i) eqn:Ei.
    { apply IH in H. destruct H as (A & B & C). split; [|split].
      - rewrite A. destruct i; try discriminate Ei; reflexivity.
      - intro m. rewrite B. simpl. split; [tauto|]. intros [?|[->|?]]; try tauto. discriminate Ei.
      - intros s Hs. apply C in Hs. destruct Hs as [?|(x & X & Y)]; [left; assumption|]. right. exists x. split; [right; exact X|exact Y]. }
    destruct (encode_args lbl c i) as [[args c1]|] eqn:Ea; [|discriminate].
    apply IH in H. cbn [c_sets c_errors c_checkers] in H. destruct H as (A & B & C).
    assert (K : c_checkers c1 = c_checkers c ++ (match i with ICheckEnd k => [k] | _ => [] end) /\
      (forall m, In m (c_errors c1) <-> In m (c_errors c) \/ i = IError m) /\
      (forall s, In s (c_sets c1) -> In s (c_sets c) \/ has_set [i] s)).
    { assert (SK : forall s k c2, add_set c s = (k, c2) -> has_set [i] s -> c_checkers c2 = c_checkers c /\ c_errors c2 = c_errors c /\
          (forall x, In x (c_sets c2) -> In x (c_sets c) \/ has_set [i] x)).
      { intros s k c2 E Hs. unfold add_set in E. destruct (find_idx _ _ _); injection E as <- <-.
        - repeat split; auto.
        - cbn [c_sets c_errors c_checkers]. repeat split; auto. intros x Hx. apply in_app_iff in Hx. destruct Hx as [?|[<-|[]]]; [left; assumption|right; exact Hs]. }
      assert (TR : c1 = c -> (forall k, i <> ICheckEnd k) -> (forall m, i <> IError m) ->
        c_checkers c1 = c_checkers c ++ (match i with ICheckEnd k => [k] | _ => [] end) /\
        (forall m, In m (c_errors c1) <-> In m (c_errors c) \/ i = IError m) /\
        (forall s, In s (c_sets c1) -> In s (c_sets c) \/ has_set [i] s)).
      { intros -> N1 N2. split; [|split].
        - destruct i; try (symmetry; apply app_nil_r). exfalso. eapply N1; reflexivity.
        - intro m. split; [tauto|]. intros [?|X]; [assumption|]. exfalso. eapply N2; exact X.
        - intros s Hs. left; exact Hs. }
      assert (TS : forall s k c2, add_set c s = (k, c2) -> has_set [i] s -> c1 = c2 -> (forall k, i <> ICheckEnd k) -> (forall m, i <> IError m) ->
        c_checkers c1 = c_checkers c ++ (match i with ICheckEnd k => [k] | _ => [] end) /\
        (forall m, In m (c_errors c1) <-> In m (c_errors c) \/ i = IError m) /\
        (forall s, In s (c_sets c1) -> In s (c_sets c) \/ has_set [i] s)).
      { intros s k c2 E Hs -> N1 N2. destruct (SK s k c2 E Hs) as (X & Y & Z). split; [|split].
        - rewrite X. destruct i; try (symmetry; apply app_nil_r). exfalso. eapply N1; reflexivity.
        - intro m. rewrite Y. split; [tauto|]. intros [?|Q]; [assumption|]. exfalso. eapply N2; exact Q.
        - exact Z. }
      destruct i; cbn [encode_args] in Ea; unfold obind in Ea; try discriminate;
      try (apply TR; [|discriminate|discriminate];
           repeat match type of Ea with context [match ?x with Some _ => _ | None => _ end] => destruct x; try discriminate end;
           injection Ea as _ <-; reflexivity);
      try (match type of Ea with context [add_set c ?s] => destruct (add_set c s) as [k c2] eqn:Es; apply (TS s k c2 Es); [|
           repeat match type of Ea with context [match ?x with Some _ => _ | None => _ end] => destruct x; try discriminate end;
           injection Ea as _ <-; reflexivity|discriminate|discriminate];
           eexists; split; [left; reflexivity|reflexivity] end).
      - (* check *)
        unfold add_checker in Ea. destruct (encode_u24 _); [|discriminate]. injection Ea as _ <-. cbn [c_checkers c_errors c_sets].
        split; [reflexivity|]. split; [|intros; left; assumption]. intro m'. split; [tauto|]. intros [?|?]; [assumption|discriminate].
      - (* error *)
        destruct (add_error c msg) as [k c2] eqn:Es. destruct (encode_u24 _); [|discriminate]. injection Ea as _ <-.
        unfold add_error in Es. destruct (find_idx String.eqb msg (c_errors c)) as [x|] eqn:F; injection Es as _ <-.
        + split; [symmetry; apply app_nil_r|]. split; [|intros; left; assumption]. intro m'. split; [tauto|]. intros [?|X]; [assumption|].
          injection X as <-. clear -F. revert x F. induction (c_errors c) as [|y l IH]; intros x F; [discriminate|]. cbn [find_idx] in F.
          destruct (String.eqb_spec msg y); [left; congruence|]. destruct (find_idx String.eqb msg l); [|discriminate]. right. eapply IH; reflexivity.
        + cbn [c_checkers c_errors c_sets]. split; [symmetry; apply app_nil_r|]. split; [|intros; left; assumption].
          intro m'. rewrite in_app_iff. simpl. split.
          * intros [?|[<-|[]]]; [left; assumption|right; reflexivity].
          * intros [?|X]; [left; assumption|]. injection X as <-. right; left; reflexivity. }
    destruct K as (K1 & K2 & K3). split; [|split].
    + rewrite A, K1, <- app_assoc. reflexivity.
    + intro m. rewrite B, K2. simpl. intuition congruence.
    + intros s Hs. apply C in Hs. destruct Hs as [Hs|(x & X & Y)].
      * apply K3 in Hs. destruct Hs as [?|(x & [<-|[]] & Y)]; [left; assumption|]. right. exists i. split; [left; reflexivity|exact Y].
      * right. exists x. split; [right; exact X|exact Y].
Qed.

Lemma encode_parts : forall p c, encode p = Some c ->
  (forall k, In k (c_checkers c) <-> has_check p k) /\ (forall m, In m (c_errors c) <-> has_msg p m) /\
  (forall s, In s (c_sets c) -> has_set p s).
Proof.
  intros p c H. unfold encode in H. destruct (encode_loop _ _ _) as [c'|] eqn:E; [|discriminate]. injection H as <-.
  cbn [c_checkers c_errors c_sets]. apply find_idx_none in E. cbn [c_checkers c_errors c_sets] in E. destruct E as (A & B & C).
  split; [|split].
  - intro k. rewrite A. simpl. rewrite in_flat_map. unfold has_check. split.
    + intros (i & I & J). destruct i; simpl in J; try contradiction. destruct J as [<-|[]]. exact I.
    + intro I. exists (ICheckEnd k). split; [exact I|left; reflexivity].
  - intro m. rewrite B. simpl. unfold has_msg. tauto.
  - intros s Hs. apply C in Hs. destruct Hs as [[]|Hs]. exact Hs.
Qed.

(** * The theorems *)
Lemma json_iff : forall p c obj, encode p = Some c -> (forall s, has_set p s -> cs_wf s) ->
  ((exists j, to_json (with_objects obj c) = Some j /\ from_json j = (with_objects obj c, false))
   <-> (forall k, ~ has_check p k) /\ (forall m, has_msg p m -> valid_utf8 (bytes_of m))).
Proof.
  intros p c obj H W. destruct (encode_parts p c H) as (A & B & C).
  assert (F : Forall cs_wf (g_sets (with_objects obj c))) by (apply Forall_forall; intros s Hs; apply W, C, Hs).
  assert (M : map coerce (map bytes_of (c_errors c)) = map bytes_of (c_errors c) <-> (forall m, has_msg p m -> valid_utf8 (bytes_of m))).
  { rewrite map_id_iff, Forall_forall. split.
    - intros X m Hm. apply coerce_id, X, in_map, B, Hm.
    - intros X s Hs. apply in_map_iff in Hs. destruct Hs as (m & <- & Hm). apply coerce_id, X, B, Hm. }
  split.
  - intros (j & J1 & J2). destruct (from_to _ F j J1) as (ks & K1 & K2). rewrite K2 in J2. unfold with_objects in J2. cbn [g_sets g_errors g_checkers g_insns] in J2.
    injection J2 as X Y Z. split; [|apply M; exact X].
    intros k Hk. apply A in Hk. pose proof (un_none ks) as U. rewrite Y in U. rewrite Forall_forall in U.
    assert (I : In (Some (obj k)) (map (fun k => Some (obj k)) (c_checkers c))) by (apply (in_map (fun k => Some (obj k))); exact Hk).
    apply U in I. discriminate.
  - intros [N V]. assert (E : c_checkers c = []).
    { destruct (c_checkers c) as [|k l] eqn:E; [reflexivity|]. exfalso. apply (N k). apply A. left. reflexivity. }
    destruct (to_json (with_objects obj c)) as [j|] eqn:J.
    + exists j. split; [reflexivity|]. destruct (from_to _ F j J) as (ks & K1 & K2). rewrite K2.
      unfold with_objects in *. cbn [g_sets g_errors g_checkers g_insns] in *. rewrite E in *. injection K1 as <-. cbn [un_list fst snd map].
      apply M in V. rewrite V. reflexivity.
    + exfalso. unfold to_json, with_objects in J. cbn [g_checkers] in J. rewrite E in J. discriminate.
Qed.

Lemma all_some_map : forall A B (f : A -> option B) (g : A -> B) l, (forall x, In x l -> f x = Some (g x)) -> all_some (map f l) = Some (map g l).
Proof.
  induction l as [|x l IH]; intro H; [reflexivity|]. cbn [map all_some]. rewrite (H x) by (left; reflexivity). rewrite IH by (intros y Hy; apply H; right; exact Hy). reflexivity.
Qed.
Lemma all_some_none : forall A B (f : A -> option B) l x, In x l -> f x = None -> all_some (map f l) = None.
Proof.
  induction l as [|y l IH]; intros x I H; [destruct I|]. cbn [map all_some]. destruct I as [->|I]; [rewrite H; reflexivity|].
  destruct (f y); [|reflexivity]. rewrite (IH x I H). reflexivity.
Qed.

Lemma ug_sets : forall l, ug_list ug_set (GList (map gob_set l)) = Some l.
Proof.
  intro l. unfold ug_list. rewrite map_map. rewrite (all_some_map _ _ _ (fun s => s)); [rewrite map_id; reflexivity|].
  intros s _. unfold gob_set. destruct s as [a b c d]. cbn [cw0 cw1 cw2 cw3].
  destruct (N.eqb_spec a 0), (N.eqb_spec b 0), (N.eqb_spec c 0), (N.eqb_spec d 0); subst; reflexivity.
Qed.
Lemma ug_strings : forall l, ug_list ug_bytes (GList (map GBytes l)) = Some l.
Proof.
  intro l. unfold ug_list. rewrite map_map. rewrite (all_some_map _ _ _ (fun s => s)); [rewrite map_id; reflexivity|]. reflexivity.
Qed.

Lemma field_at : forall A (ug : gob -> option A) zero n l r, (is_nil l = true -> ug (GList l) = Some zero) ->
  field ug zero n (gob_field n l ++ r) = if is_nil l then field ug zero n r else ug (GList l).
Proof.
  intros A ug zero n l r H. unfold gob_field. destruct (is_nil l); [reflexivity|]. unfold field. cbn [app find fst]. rewrite Nat.eqb_refl. reflexivity.
Qed.
Lemma field_past : forall A (ug : gob -> option A) zero n m l r, n <> m -> field ug zero n (gob_field m l ++ r) = field ug zero n r.
Proof.
  intros A ug zero n m l r H. unfold gob_field. destruct (is_nil l); [reflexivity|]. unfold field. cbn [app find fst].
  destruct (Nat.eqb_spec m n); [congruence|reflexivity].
Qed.

Lemma from_to_gob : forall ord ord' c g, to_gob ord ord' c = Some g -> exists ks,
  all_some (map (gob_checker ord ord') (g_checkers c)) = Some ks /\
  from_gob g = option_map (fun k => GCode (g_sets c) (g_errors c) k (g_insns c)) (all_some (map ug_checker ks)).
Proof.
  intros ord ord' c g H. unfold to_gob in H. destruct (all_some _) as [ks|] eqn:K; [|discriminate]. injection H as <-. exists ks. split; [reflexivity|].
  unfold from_gob.
  set (tl := if is_nil (g_insns c) then [] else [(3, GBytes (g_insns c))]).
  assert (T : forall A (ug : gob -> option A) zero n, n <> 3 -> field ug zero n tl = Some zero).
  { intros A ug zero n N. unfold tl. destruct (is_nil (g_insns c)); [reflexivity|]. unfold field. cbn [find fst]. destruct (Nat.eqb_spec 3 n); [congruence|reflexivity]. }
  rewrite (field_at _ (ug_list ug_set)) by (destruct (map gob_set (g_sets c)); [reflexivity|discriminate]).
  rewrite (field_past _ (ug_list ug_set)), (field_past _ (ug_list ug_set)), T by discriminate.
  rewrite (field_past _ (ug_list ug_bytes)) by discriminate.
  rewrite (field_at _ (ug_list ug_bytes)) by (destruct (map GBytes (g_errors c)); [reflexivity|discriminate]).
  rewrite (field_past _ (ug_list ug_bytes)), T by discriminate.
  rewrite (field_past _ (ug_list ug_checker)), (field_past _ (ug_list ug_checker)) by discriminate.
  rewrite (field_at _ (ug_list ug_checker)) by (destruct ks; [reflexivity|discriminate]). rewrite T by discriminate.
  rewrite (field_past _ ug_bytes), (field_past _ ug_bytes), (field_past _ ug_bytes) by discriminate.
  replace (if is_nil (map gob_set (g_sets c)) then Some [] else ug_list ug_set (GList (map gob_set (g_sets c)))) with (Some (g_sets c)).
  2:{ rewrite ug_sets. destruct (g_sets c); reflexivity. }
  replace (if is_nil (map GBytes (g_errors c)) then Some [] else ug_list ug_bytes (GList (map GBytes (g_errors c)))) with (Some (g_errors c)).
  2:{ rewrite ug_strings. destruct (g_errors c); reflexivity. }
  replace (field ug_bytes [] 3 tl) with (Some (g_insns c)).
  2:{ unfold tl. destruct (g_insns c); reflexivity. }
  unfold ug_list. destruct ks as [|k ks]; [reflexivity|]. cbn [is_nil]. destruct (all_some _); reflexivity.
Qed.

Lemma gob_ok : forall ord ord', (forall l, Permutation (ord l) l) -> forall p c obj, encode p = Some c ->
  (forall k, has_check p k -> exists ks, obj k = OMap ks) ->
  exists g c', to_gob ord ord' (with_objects obj c) = Some g /\ from_gob g = Some c' /\ same_code c' (with_objects obj c).
Proof.
  intros ord ord' P p c obj H M. destruct (encode_parts p c H) as (A & B & C).
  set (keys := fun k => match obj k with OMap ks => ks | _ => [] end).
  assert (K : forall k, In k (c_checkers c) -> obj k = OMap (keys k)).
  { intros k Hk. apply A, M in Hk. destruct Hk as [ks E]. unfold keys. rewrite E. reflexivity. }
  set (gk := fun k => GIface map_name (GMap (map (fun s => (GBytes s, GStruct [])) (ord (keys k))))).
  assert (G : all_some (map (gob_checker ord ord') (map (fun k => Some (obj k)) (c_checkers c))) = Some (map gk (c_checkers c))).
  { rewrite map_map. apply all_some_map. intros k Hk. rewrite (K k Hk). reflexivity. }
  destruct (to_gob ord ord' (with_objects obj c)) as [g|] eqn:T.
  2:{ unfold to_gob in T. unfold with_objects in T. cbn [g_checkers] in T. rewrite G in T. discriminate. }
  destruct (from_to_gob _ _ _ _ T) as (ks & K1 & K2). cbn [with_objects g_checkers] in K1. rewrite G in K1. injection K1 as <-.
  rewrite map_map in K2. rewrite (all_some_map _ _ _ (fun k => Some (OMap (ord (keys k))))) in K2.
  2:{ intros k _. unfold gk, ug_checker. replace (bytes_eqb map_name map_name) with true by reflexivity. rewrite map_map. cbn [fst ug_bytes].
      rewrite (all_some_map _ _ _ (fun s => s)) by reflexivity. rewrite map_id. reflexivity. }
  eexists g, _. split; [reflexivity|]. split; [exact K2|]. unfold same_code. cbn [with_objects g_sets g_errors g_checkers g_insns].
  repeat (split; [reflexivity|]). clear -K P. revert K. induction (c_checkers c) as [|k l IH]; intro K; cbn [map]; constructor.
  - rewrite (K k) by (left; reflexivity). unfold same_checker. apply P.
  - apply IH. intros k' Hk'. apply K. right. exact Hk'.
Qed.

Lemma gob_ref : forall ord ord' p c obj k s g, encode p = Some c -> has_check p k -> obj k = ORef s ->
  to_gob ord ord' (with_objects obj c) = Some g -> from_gob g = None.
Proof.
  intros ord ord' p c obj k s g H Hk E T. destruct (encode_parts p c H) as (A & _ & _). apply A in Hk.
  destruct (from_to_gob _ _ _ _ T) as (ks & K1 & K2). rewrite K2. cbn [with_objects g_checkers] in K1.
  assert (N : exists x, In x ks /\ ug_checker x = None).
  { clear -K1 Hk E. revert ks K1 Hk. induction (c_checkers c) as [|k' l IH]; intros ks K1 Hk; [destruct Hk|].
    cbn [map all_some] in K1. destruct (gob_checker ord ord' (Some (obj k'))) as [x|] eqn:X; [|discriminate].
    destruct (all_some _) as [r|] eqn:R; [|discriminate]. injection K1 as <-. destruct Hk as [->|Hk].
    - exists x. split; [left; reflexivity|]. rewrite E in X. injection X as <-. reflexivity.
    - destruct (IH r eq_refl Hk) as (y & Y1 & Y2). exists y. split; [right; exact Y1|exact Y2]. }
  destruct N as (x & X1 & X2). rewrite (all_some_none _ _ ug_checker ks x X1 X2). reflexivity.
Qed.
Lemma gob_user : forall ord ord' p c obj k j, encode p = Some c -> has_check p k -> obj k = OUser j ->
  to_gob ord ord' (with_objects obj c) = None.
Proof.
  intros ord ord' p c obj k j H Hk E. destruct (encode_parts p c H) as (A & _ & _). apply A in Hk.
  unfold to_gob. cbn [with_objects g_checkers]. rewrite map_map.
  rewrite (all_some_none _ _ (fun k => gob_checker ord ord' (Some (obj k))) _ k Hk); [reflexivity|]. rewrite E. reflexivity.
Qed.
