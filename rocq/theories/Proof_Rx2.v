(** The conversion of regular expressions: characters and bytes. *)
From Coq Require Import ZArith ZifyN.
From Verif Require Import Base Model_Charset Model_Isa Model_Capture Model_VM Model_Pattern Model_Rxconv Spec_Peg Spec_Rx Spec_Props Proof_Charset Proof_Props2 Proof_Rx.
Local Open Scope nat_scope.
Ltac Zify.zify_post_hook ::= Z.div_mod_to_equations.

(* ---------- UTF-8 ---------- *)
Definition cont (b : byte) : Prop := (128 <= bN b < 192)%N.
Lemma utf8_cases : forall r, scalar r ->
  ((r < 128)%N /\ utf8 r = [N2b r]) \/
  ((128 <= r < 2048)%N /\ utf8 r = [N2b (192 + r / 64); N2b (128 + r mod 64)]) \/
  ((2048 <= r < 65536)%N /\ utf8 r = [N2b (224 + r / 4096); N2b (128 + r / 64 mod 64); N2b (128 + r mod 64)]) \/
  ((65536 <= r <= 1114111)%N /\ utf8 r = [N2b (240 + r / 262144); N2b (128 + r / 4096 mod 64); N2b (128 + r / 64 mod 64); N2b (128 + r mod 64)]).
Proof.
  intros r [Hs Hm]. unfold utf8. rewrite Hs. cbn [orb].
  destruct (N.ltb_spec r 128) as [A|A]; [left; auto|]. right. destruct (N.ltb_spec r 2048) as [B|B]; [left; split; [lia|reflexivity]|]. right.
  destruct (N.ltb_spec 1114111 r) as [C|C]; [lia|]. destruct (N.ltb_spec r 65536) as [D|D]; [left; split; [lia|reflexivity]|right; split; [lia|reflexivity]].
Qed.
Lemma utf8_shape : forall r, scalar r -> exists b bs, utf8 r = b :: bs /\ Forall cont bs /\
  (((r < 128)%N /\ bN b = r /\ bs = []) \/ ((128 <= r)%N /\ (192 <= bN b)%N /\ bs <> [])).
Proof.
  intros r H. destruct (utf8_cases r H) as [[L ->]|[[L ->]|[[L ->]|[L ->]]]]; do 2 eexists; (split; [reflexivity|]).
  - split; [constructor|]. left. rewrite bN_N2b by lia. auto.
  - split; [repeat (apply Forall_cons; [unfold cont; rewrite !bN_N2b by lia; lia|]); apply Forall_nil|]. right. rewrite bN_N2b by lia. split; [lia|]. split; [lia|discriminate].
  - split; [repeat (apply Forall_cons; [unfold cont; rewrite !bN_N2b by lia; lia|]); apply Forall_nil|]. right. rewrite bN_N2b by lia. split; [lia|]. split; [lia|discriminate].
  - split; [repeat (apply Forall_cons; [unfold cont; rewrite !bN_N2b by lia; lia|]); apply Forall_nil|]. right. rewrite bN_N2b by lia. split; [lia|]. split; [lia|discriminate].
Qed.
Lemma N2b_eq : forall a b, (a < 256)%N -> (b < 256)%N -> N2b a = N2b b -> a = b.
Proof. intros a b Ha Hb H. rewrite <- (bN_N2b a Ha), <- (bN_N2b b Hb), H. reflexivity. Qed.
Lemma join2 : forall r c, (r / 64 = c / 64 -> r mod 64 = c mod 64 -> r = c)%N.
Proof. intros. rewrite (N.div_mod r 64), (N.div_mod c 64) by discriminate. congruence. Qed.
Lemma join3 : forall r c, (r / 4096 = c / 4096 -> (r / 64) mod 64 = (c/64) mod 64 -> r mod 64 = c mod 64 -> r = c)%N.
Proof. intros. apply join2; [|assumption]. apply join2; [|assumption]. rewrite !N.div_div by discriminate. exact H. Qed.
Lemma join4 : forall r c, (r / 262144 = c / 262144 -> (r/4096) mod 64 = (c/4096) mod 64 -> (r / 64) mod 64 = (c/64) mod 64 -> r mod 64 = c mod 64 -> r = c)%N.
Proof. intros. apply join3; [|assumption|assumption]. apply join2; [|assumption]. rewrite !N.div_div by discriminate. exact H. Qed.
Lemma cons_eq : forall (A : Type) (a b : A) l m, a :: l = b :: m -> a = b /\ l = m.
Proof. intros A a b l m H. injection H. auto. Qed.
Lemma utf8_prefix : forall r c x y, scalar r -> scalar c -> utf8 r ++ x = utf8 c ++ y -> r = c.
Proof.
  intros r c x y Hr Hc E.
  destruct (utf8_cases r Hr) as [[L Q]|[[L Q]|[[L Q]|[L Q]]]]; rewrite Q in E; destruct (utf8_cases c Hc) as [[L' Q']|[[L' Q']|[[L' Q']|[L' Q']]]]; rewrite Q' in E; clear Q Q';
    cbn [app] in E; repeat match type of E with _ :: _ = _ :: _ => apply cons_eq in E; let E1 := fresh "E1" in destruct E as [E1 E] end; clear E;
    repeat match goal with H : N2b _ = N2b _ |- _ => apply N2b_eq in H; [|lia|lia] end; first [lia | apply join2; lia | apply join3; lia | apply join4; lia].
Qed.
Lemma utf8_bad : forall r, ~ scalar r -> utf8 r = utf8 65533.
Proof.
  intros r H. unfold utf8 at 1. assert (Q : surrogate r = true \/ (1114111 < r)%N).
  { destruct (surrogate r) eqn:E; [auto|]. right. apply N.nle_gt. intro L. apply H. split; assumption. }
  assert (G : (2048 <= r)%N). { destruct Q as [Q|Q]; [|lia]. unfold surrogate in Q. apply andb_true_iff in Q. rewrite !N.leb_le in Q. lia. }
  rewrite (proj2 (N.ltb_ge r 128)), (proj2 (N.ltb_ge r 2048)) by lia. replace (surrogate r || (1114111 <? r)%N) with true; [reflexivity|].
  symmetry. apply orb_true_iff. destruct Q as [Q|Q]; [auto|]. right. apply N.ltb_lt. exact Q.
Qed.
Lemma scalar_fffd : scalar 65533.
Proof. split; [reflexivity|lia]. Qed.
Lemma scalar_dec : forall r, scalar r \/ ~ scalar r.
Proof.
  intro r. unfold scalar. destruct (surrogate r); [right; intros [H _]; discriminate|]. destruct (N.le_gt_cases r 1114111); [left; auto|right; intros [_ H1]; lia].
Qed.

Section Text.
Variable t : list N.
Hypothesis Ht : Forall scalar t.
Notation s := (utf8s t).
Notation boff := (boff t).

Lemma utf8s_app : forall a b, utf8s (a ++ b) = utf8s a ++ utf8s b.
Proof. intros. unfold utf8s. apply flat_map_app. Qed.
Lemma boff_skip : forall n, skipn (boff n) s = utf8s (skipn n t).
Proof.
  intro n. rewrite <- (firstn_skipn n t) at 2. rewrite utf8s_app. unfold Spec_Rx.boff. rewrite skipn_app, skipn_all, Nat.sub_diag. reflexivity.
Qed.
Lemma boff_S : forall n c, nth_error t n = Some c -> boff (S n) = boff n + List.length (utf8 c).
Proof.
  intros n c H. unfold Spec_Rx.boff. assert (E : firstn (S n) t = firstn n t ++ [c]).
  { clear - H. revert n H. induction t as [|x l IH]; intros [|n] H; try discriminate; cbn in *; [congruence|rewrite IH by exact H; reflexivity]. }
  rewrite E, utf8s_app, app_length. cbn [utf8s flat_map]. rewrite app_nil_r. reflexivity.
Qed.
Lemma boff_0 : boff 0 = 0.
Proof. reflexivity. Qed.
Lemma boff_end : boff (List.length t) = List.length s.
Proof. unfold Spec_Rx.boff. rewrite firstn_all. reflexivity. Qed.
Lemma boff_lt : forall m n, m < n -> n <= List.length t -> boff m < boff n.
Proof.
  intros m n H L. induction n as [|n IH]; [lia|]. destruct (nth_error t n) as [c|] eqn:E; [|apply nth_error_None in E; lia].
  rewrite (boff_S n c E). pose proof (utf8_len c). destruct (Nat.eq_dec m n) as [->|N]; [lia|]. specialize (IH ltac:(lia) ltac:(lia)). lia.
Qed.
Lemma boff_le : forall n, n <= List.length t -> boff n <= List.length s.
Proof. intros n H. destruct (Nat.eq_dec n (List.length t)) as [->|N]; [rewrite boff_end; lia|]. rewrite <- boff_end. apply Nat.lt_le_incl. apply boff_lt; lia. Qed.
Lemma boff_past : forall n, List.length t <= n -> boff n = List.length s.
Proof. intros n H. unfold Spec_Rx.boff. rewrite firstn_all2 by exact H. reflexivity. Qed.
Lemma t_scalar : forall n c, nth_error t n = Some c -> scalar c.
Proof. intros n c H. rewrite Forall_forall in Ht. apply Ht. eapply nth_error_In. exact H. Qed.
Lemma skip_at : forall n c, nth_error t n = Some c -> skipn n t = c :: skipn (S n) t.
Proof. intros n c H. rewrite skipn_nth_error, H. reflexivity. Qed.
Lemma byte_at : forall n, nth_error s (boff n) = match nth_error t n with Some c => hd_error (utf8 c) | None => None end.
Proof.
  intro n. replace (nth_error s (boff n)) with (nth_error (skipn (boff n) s) 0) by (rewrite nth_error_skipn'; f_equal; lia). rewrite boff_skip.
  destruct (nth_error t n) as [c|] eqn:E.
  - rewrite (skip_at n c E). cbn [utf8s flat_map]. pose proof (utf8_len c). destruct (utf8 c); [cbn in *; lia|reflexivity].
  - apply nth_error_None in E. rewrite skipn_all2 by exact E. reflexivity.
Qed.
Lemma nth_last : forall (a : list byte) b, a <> [] -> nth_error (a ++ b) (List.length a - 1) = nth_error a (List.length a - 1).
Proof. intros a b H. apply nth_error_app1. destruct a; [contradiction|cbn; lia]. Qed.
Lemma byte_before_at : forall n c, nth_error t n = Some c -> byte_before s (boff (S n)) = nth_error (utf8 c) (List.length (utf8 c) - 1).
Proof.
  intros n c E. rewrite (boff_S n c E). pose proof (utf8_len c). destruct (boff n + List.length (utf8 c)) as [|m] eqn:Em; [lia|]. cbn [byte_before].
  replace m with (boff n + (List.length (utf8 c) - 1)) by lia. rewrite <- nth_error_skipn', boff_skip, (skip_at n c E). cbn [utf8s flat_map].
  apply nth_last. intro Z. rewrite Z in H. cbn in H. lia.
Qed.
(** the last byte of a character *)
Lemma last_byte : forall c, scalar c -> exists b, nth_error (utf8 c) (List.length (utf8 c) - 1) = Some b /\ (((c < 128)%N /\ bN b = c) \/ ((128 <= c)%N /\ cont b)).
Proof.
  intros c H. destruct (utf8_shape c H) as (b & bs & E & Hc & [(L & Hb & ->)|(L & Hb & N)]); rewrite E.
  - exists b. cbn. auto.
  - destruct (exists_last N) as (l & x & ->). exists x. cbn [List.length]. rewrite app_length. cbn [List.length]. replace (S (List.length l + 1) - 1) with (S (List.length l)) by lia. cbn [nth_error].
    rewrite nth_error_app2, Nat.sub_diag by lia. split; [reflexivity|]. right. split; [exact L|]. apply Forall_app in Hc. destruct Hc as [_ Hc]. inversion Hc; assumption.
Qed.
(** a position inside of the text is at a character or inside of one *)
Lemma position : forall i, i <= List.length s -> (exists n, n <= List.length t /\ i = boff n) \/
  (exists b c, nth_error s i = Some b /\ cont b /\ byte_before s i = Some c /\ (128 <= bN c)%N).
Proof.
  intros i Hi. assert (Q : forall n, n <= List.length t -> (exists m, m <= n /\ i = boff m) \/ boff n < i \/
    (exists b c, nth_error s i = Some b /\ cont b /\ byte_before s i = Some c /\ (128 <= bN c)%N)).
  { induction n as [|n IH]; intro L.
    - destruct (Nat.eq_dec i 0) as [->|N]; [left; exists 0; split; [lia|reflexivity]|right; left; rewrite boff_0; lia].
    - destruct (IH ltac:(lia)) as [(m & M1 & M2)|[G|G]]; [left; exists m; split; [lia|exact M2]| |right; right; exact G].
      destruct (nth_error t n) as [c|] eqn:E; [|apply nth_error_None in E; lia]. pose proof (boff_S n c E) as B.
      destruct (Nat.eq_dec i (boff (S n))) as [->|N]; [left; exists (S n); split; [lia|reflexivity]|]. destruct (Nat.lt_ge_cases (boff (S n)) i) as [K|K]; [right; left; exact K|].
      right. right. destruct (utf8_shape c (t_scalar n c E)) as (b & bs & Eu & Hc & Hb). set (d := i - boff n).
      assert (D : nth_error s i = nth_error (utf8 c) d). { replace i with (boff n + d) by (unfold d; lia). rewrite <- nth_error_skipn', boff_skip, (skip_at n c E). cbn [utf8s flat_map]. apply nth_error_app1. unfold d. lia. }
      assert (D' : byte_before s i = nth_error (utf8 c) (d - 1)).
      { destruct i as [|i']; [lia|]. cbn [byte_before]. replace i' with (boff n + (d - 1)) by (unfold d; lia). rewrite <- nth_error_skipn', boff_skip, (skip_at n c E). cbn [utf8s flat_map]. apply nth_error_app1. unfold d. lia. }
      rewrite D, D', Eu. rewrite Eu in B. cbn [List.length] in B. rewrite Forall_forall in Hc. destruct Hb as [(_ & _ & ->)|(_ & Hb & _)]; [cbn [List.length] in B; unfold d in *; lia|].
      destruct d as [|d'] eqn:Ed; [unfold d in Ed; lia|]. cbn [nth_error Nat.sub]. rewrite Nat.sub_0_r.
      destruct (nth_error bs d') as [x|] eqn:Ex; [|apply nth_error_None in Ex; unfold d in Ed; lia]. exists x.
      destruct d' as [|d''].
      + exists b. split; [reflexivity|]. split; [apply Hc; eapply nth_error_In; exact Ex|]. split; [reflexivity|lia].
      + destruct (nth_error bs d'') as [y|] eqn:Ey; [|apply nth_error_None in Ey; assert (S d'' < List.length bs) by (apply nth_error_Some; congruence); lia].
        exists y. split; [reflexivity|]. split; [apply Hc; eapply nth_error_In; exact Ex|]. cbn [nth_error]. split; [exact Ey|]. assert (cont y) as [Y _] by (apply Hc; eapply nth_error_In; exact Ey). exact Y. }
  destruct (Q (List.length t) (le_n _)) as [(m & M1 & M2)|[G|G]]; [left; eauto|rewrite boff_end in G; lia|right; exact G].
Qed.

(* ---------- the two matchers ---------- *)
Definition rbase : base := Base (List.length t) (lit_ends t false) (fun ranges => one t (fun r => existsb (in_range r) ranges))
  (one t (fun _ => true)) (one t (fun r => negb (r =? 10)%N)) (assert_holds t).
Lemma one_ahead : forall f, ahead rbase true (one t f).
Proof.
  intros f i j Hi Hj. unfold one in Hj. destruct (nth_error t i) eqn:E; [|destruct Hj]. destruct (f n); [|destruct Hj]. destruct Hj as [<-|[]].
  assert (i < List.length t) by (apply nth_error_Some; congruence). cbn. lia.
Qed.
Lemma lit_ahead : forall rs, ahead rbase (match rs with [] => false | _ => true end) (lit_ends t false rs).
Proof.
  induction rs as [|r rs IH]; intros i j Hi Hj; cbn [lit_ends] in Hj.
  - destruct Hj as [<-|[]]. cbn in *. lia.
  - destruct (nth_error t i) eqn:E; [|destruct Hj]. destruct (rune_matches false r n); [|destruct Hj]. assert (i < List.length t) by (apply nth_error_Some; congruence).
    destruct (IH (S i) j ltac:(cbn; lia) Hj) as [X1 X2]. split; [|exact X2]. destruct rs; lia.
Qed.
Lemma rends_ahead : forall e, fits e -> ahead rbase (negb (nullable e)) (gends rbase e).
Proof. apply gends_ahead; [exact lit_ahead|intro; apply one_ahead|apply one_ahead|apply one_ahead]. Qed.
Lemma gends_ends : forall e, fits e -> forall n, gends rbase e n = ends t e n.
Proof.
  assert (SE : forall f g, (forall n, f n = g n) -> forall m n, star_ends m true f n = star_ends m true g n).
  { intros f g H. induction m as [|m IH]; intro n; [reflexivity|]. cbn [star_ends]. rewrite H. f_equal. apply flat_map_ext. exact IH. }
  induction e using rx_ind'; intros F n; try reflexivity.
  - destruct F as [F _]. cbn in F. subst f. reflexivity.
  - destruct F as [_ F]. apply all_parts_list in F. cbn [gends ends]. revert n. induction H as [|e es He H IH]; intro n; [reflexivity|]. inversion F; subst. rewrite He by assumption. apply flat_map_ext. intro. apply IH. assumption.
  - destruct F as [_ F]. apply all_parts_list in F. cbn [gends ends]. induction H as [|e es He H IH]; [reflexivity|]. inversion F; subst. rewrite He by assumption. rewrite IH by assumption. reflexivity.
  - apply IHe. apply F.
  - destruct F as [[-> _] F]. cbn [gends ends]. unfold bstar. apply SE. apply IHe. exact F.
  - destruct F as [[-> _] F]. cbn [gends ends]. rewrite (IHe F). apply flat_map_ext. intro. unfold bstar. apply SE. apply IHe. exact F.
  - destruct F as [F0 F]. cbn in F0. subst g. cbn [gends ends]. rewrite (IHe F). reflexivity.
Qed.

Definition same (f g : nat -> list nat) : Prop := forall K n, n <= List.length t -> pick K (f (boff n)) = pick (fun j => K (boff j)) (g n).
Notation bb := (bbase s).
Definition leaf_same (e : rx) : Prop :=
  match e with RxLit _ _ | RxClass _ | RxAny | RxAnyNotNL | RxAssert _ => same (gends bb e) (gends rbase e) | _ => True end.
Lemma star_same : forall e, fits e -> nullable e = false -> same (gends bb e) (gends rbase e) -> same (bstar bb (gends bb e)) (bstar rbase (gends rbase e)).
Proof.
  intros e F N S K n Hn. pose proof (bends_ahead s e F) as A. pose proof (rends_ahead e F) as A'. rewrite N in A, A'. cbn [negb] in A, A'.
  assert (Q : forall d n, List.length t - n < d -> n <= List.length t -> pick K (bstar bb (gends bb e) (boff n)) = pick (fun j => K (boff j)) (bstar rbase (gends rbase e) n)).
  { clear n Hn. induction d as [|d IH]; intros n L Hn; [lia|]. rewrite (star_unroll bb) by (exact A || apply boff_le; exact Hn). rewrite (star_unroll rbase) by (exact A' || exact Hn).
    rewrite !pick_app, !pick_flat. rewrite S by exact Hn. cbn [pick]. f_equal.
    replace (pick (fun j => pick K (bstar bb (gends bb e) (boff j))) (gends rbase e n)) with (pick (fun j => pick (fun j => K (boff j)) (bstar rbase (gends rbase e) j)) (gends rbase e n)); [reflexivity|].
    symmetry. apply pick_ext. intros j Hj. destruct (A' n j Hn Hj) as [X1 X2]. cbn in X2. apply IH; lia. }
  apply (Q (Datatypes.S (List.length t - n))); lia.
Qed.
Lemma all_same : forall e, fits e -> all_parts leaf_same e -> same (gends bb e) (gends rbase e).
Proof.
  induction e using rx_ind'; intros F L; try (exact (all_parts_here _ _ L)).
  - intros K n Hn. reflexivity.
  - destruct F as [_ F]. apply all_parts_list in F. destruct L as [_ L]. apply all_parts_list in L. intros K n Hn. rewrite !gends_concat. revert n Hn.
    induction H as [|e es He H IH]; intros n Hn; [reflexivity|]. inversion F; subst. inversion L; subst. cbn [gseq]. rewrite !pick_flat. rewrite (He H2 H4 _ n Hn).
    apply pick_ext. intros j Hj. apply IH; [assumption|assumption|]. apply (rends_ahead e H2 n j Hn Hj).
  - destruct F as [_ F]. apply all_parts_list in F. destruct L as [_ L]. apply all_parts_list in L. intros K n Hn. rewrite !gends_alt.
    induction H as [|e es He H IH]; [reflexivity|]. inversion F; subst. inversion L; subst. cbn [flat_map]. rewrite !pick_app. rewrite (He H2 H4 _ n Hn). rewrite IH by assumption. reflexivity.
  - apply IHe; [apply F|apply L].
  - destruct F as [[_ N] F]. apply star_same; [exact F|exact N|apply IHe; [exact F|apply L]].
  - destruct F as [[_ N] F]. assert (S : same (gends bb e) (gends rbase e)) by (apply IHe; [exact F|apply L]). intros K n Hn. cbn [gends]. rewrite !pick_flat. rewrite (S _ n Hn).
    apply pick_ext. intros j Hj. apply star_same; [exact F|exact N|exact S|]. apply (rends_ahead e F n j Hn Hj).
  - destruct F as [_ F]. assert (S : same (gends bb e) (gends rbase e)) by (apply IHe; [exact F|apply L]). intros K n Hn. cbn [gends]. rewrite !pick_app. rewrite (S _ n Hn). reflexivity.
  - intros K n Hn. reflexivity.
Qed.

(* ---------- the leaves ---------- *)
Lemma beqb_eq : forall a b, beqb a b = true <-> a = b.
Proof. intros a b. unfold beqb. destruct (list_eq_dec _ a b); split; congruence. Qed.
Lemma blit_app : forall u v i, blit s (u ++ v) i = flat_map (blit s v) (blit s u i).
Proof.
  intros u v i. unfold blit at 3. destruct (beqb (firstn (List.length u) (skipn i s)) u) eqn:E; cbn [flat_map].
  - apply beqb_eq in E. rewrite app_nil_r. unfold blit. rewrite app_length. assert (Q : firstn (List.length u + List.length v) (skipn i s) = u ++ firstn (List.length v) (skipn (i + List.length u) s)).
    { rewrite <- (firstn_skipn (List.length u) (skipn i s)) at 1. rewrite E. rewrite firstn_app, firstn_all2 by lia. replace (List.length u + List.length v - List.length u) with (List.length v) by lia. rewrite skipn_skipn'. reflexivity. }
    rewrite Q. replace (beqb (u ++ firstn (List.length v) (skipn (i + List.length u) s)) (u ++ v)) with (beqb (firstn (List.length v) (skipn (i + List.length u) s)) v).
    + destruct (beqb _ v); [|reflexivity]. f_equal. lia.
    + destruct (beqb (firstn _ _) v) eqn:E1, (beqb (u ++ _) (u ++ v)) eqn:E2; try reflexivity; exfalso.
      * apply beqb_eq in E1. rewrite E1 in E2. assert (beqb (u ++ v) (u ++ v) = true) by (apply beqb_eq; reflexivity). congruence.
      * apply beqb_eq in E2. apply app_inv_head in E2. apply beqb_eq in E2. congruence.
  - unfold blit. destruct (beqb _ (u ++ v)) eqn:E2; [|reflexivity]. exfalso. apply beqb_eq in E2. rewrite app_length in E2.
    assert (firstn (List.length u) (skipn i s) = u); [|apply beqb_eq in H; congruence].
    replace (firstn (List.length u) (skipn i s)) with (firstn (List.length u) (firstn (List.length u + List.length v) (skipn i s))) by (rewrite firstn_firstn; f_equal; lia).
    rewrite E2, firstn_app, Nat.sub_diag, firstn_all. cbn. apply app_nil_r.
Qed.
(** a character at a position *)
Definition fine (r : N) : Prop := scalar r \/ ascii t.
Lemma rune_at : forall r n, fine r -> blit s (utf8 r) (boff n) = match nth_error t n with Some c => if (r =? c)%N then [boff (S n)] else [] | None => [] end.
Proof.
  intros r n Hf. unfold blit. rewrite boff_skip. destruct (nth_error t n) as [c|] eqn:E.
  - pose proof (t_scalar n c E) as Hc. rewrite (skip_at n c E). cbn [utf8s flat_map]. destruct (N.eqb_spec r c) as [->|N].
    + rewrite firstn_app, Nat.sub_diag, firstn_all. cbn [firstn]. rewrite app_nil_r. rewrite (proj2 (beqb_eq _ _) eq_refl). rewrite (boff_S n c E). reflexivity.
    + destruct (beqb _ (utf8 r)) eqn:Q; [|reflexivity]. exfalso. apply beqb_eq in Q. apply N.
      assert (Q2 : utf8 r ++ skipn (List.length (utf8 r)) (utf8 c ++ flat_map utf8 (skipn (S n) t)) = utf8 c ++ flat_map utf8 (skipn (S n) t)) by (rewrite <- Q at 1; apply firstn_skipn).
      destruct (scalar_dec r) as [Hr|Hr]; [eapply utf8_prefix; eassumption|]. destruct Hf as [Hf|Hf]; [contradiction|]. rewrite (utf8_bad r Hr) in Q2.
      apply utf8_prefix in Q2; [|exact scalar_fffd|exact Hc]. subst c. unfold ascii in Hf. rewrite Forall_forall in Hf. apply nth_error_In in E. specialize (Hf _ E). cbv beta in Hf. lia.
  - apply nth_error_None in E. rewrite skipn_all2 by exact E. cbn [utf8s flat_map]. rewrite firstn_nil. destruct (beqb [] (utf8 r)) eqn:Q; [|reflexivity].
    exfalso. apply beqb_eq in Q. pose proof (utf8_len r). rewrite <- Q in H. cbn in H. lia.
Qed.
Lemma lit_same : forall rs, Forall fine rs -> same (b_lit bb rs) (lit_ends t false rs).
Proof.
  intros rs H. induction H as [|r rs Hr H IH]; intros K n Hn; cbn [b_lit bbase].
  - unfold blit. cbn [utf8s flat_map List.length firstn lit_ends pick]. rewrite (proj2 (beqb_eq [] []) eq_refl). rewrite Nat.add_0_r. reflexivity.
  - cbn [utf8s flat_map]. rewrite blit_app, (rune_at r n Hr). cbn [lit_ends]. destruct (nth_error t n) as [c|] eqn:E; [|reflexivity]. unfold rune_matches. destruct (r =? c)%N; [|reflexivity].
    cbn [flat_map]. rewrite app_nil_r. apply (IH K (S n)). assert (n < List.length t) by (apply nth_error_Some; congruence). lia.
Qed.
Definition range_fine (x : N * N) : Prop := (fst x <= snd x)%N /\
  (ascii t \/ (snd x < 128 \/ (256 <= snd x /\ snd x <= 1114111 /\ (snd x < 55296 \/ 57343 < fst x \/ 65533 <= snd x)))%N).
Lemma in_runes : forall lo hi r, In r (runes lo hi) <-> (lo <= r <= hi)%N.
Proof.
  intros lo hi r. unfold runes. rewrite in_map_iff. split.
  - intros (i & <- & Hi). apply in_seq in Hi. lia.
  - intro H. exists (N.to_nat (r - lo)). split; [lia|]. apply in_seq. lia.
Qed.
Lemma pick_map_none : forall K (f : N -> list nat) l, (forall r, In r l -> pick K (f r) = None) -> pick K (List.concat (map f l)) = None.
Proof. intros K f l H. induction l as [|r l IH]; [reflexivity|]. cbn [map List.concat]. rewrite pick_app, (H r) by (left; reflexivity). apply IH. intros. apply H. right. assumption. Qed.
Lemma pick_map_one : forall K (f : N -> list nat) j l r0, In r0 l -> f r0 = [j] -> (forall r, In r l -> f r = [] \/ f r = [j]) -> pick K (List.concat (map f l)) = K j.
Proof.
  intros K f j l r0 H0 E0 H. assert (Q : forall l, (forall r, In r l -> f r = [] \/ f r = [j]) -> pick K (List.concat (map f l)) = K j \/ pick K (List.concat (map f l)) = None).
  { clear. induction l as [|r l IH]; intro H; [right; reflexivity|]. cbn [map List.concat]. rewrite pick_app. destruct (H r (or_introl eq_refl)) as [->| ->]; cbn [pick].
    - apply IH. intros. apply H. right. assumption.
    - destruct (K j); [left; reflexivity|]. apply IH. intros. apply H. right. assumption. }
  destruct (K j) as [m|] eqn:Ek; [|destruct (Q l H) as [->| ->]; reflexivity].
  induction l as [|r l IH]; [destruct H0|]. cbn [map List.concat]. rewrite pick_app. destruct (H r (or_introl eq_refl)) as [Er|Er]; rewrite Er; cbn [pick].
  - destruct H0 as [->|H0]; [rewrite E0 in Er; discriminate|]. apply IH; [exact H0|]. intros. apply H. right. assumption.
  - rewrite Ek. reflexivity.
Qed.
Lemma range_same : forall K lo hi n, range_fine (lo, hi) -> n <= List.length t ->
  pick K (List.concat (if ((lo <? 256) && (hi <? 256))%N then [bone s (cs_has (cs_range (N2b lo) (N2b hi))) (boff n)] else map (fun r => blit s (utf8 r) (boff n)) (runes lo hi))) =
  match nth_error t n with Some c => if in_range c (lo, hi) then K (boff (S n)) else None | None => None end.
Proof.
  intros K lo hi n [Hl Hf] Hn. cbn [fst snd] in *. unfold in_range. cbn [fst snd]. destruct ((lo <? 256) && (hi <? 256))%N eqn:Eb.
  - apply andb_true_iff in Eb. rewrite !N.ltb_lt in Eb. cbn [List.concat]. rewrite app_nil_r. unfold bone. rewrite byte_at. destruct (nth_error t n) as [c|] eqn:E; [|reflexivity].
    destruct (utf8_shape c (t_scalar n c E)) as (b & bs & Eu & _ & Hb). rewrite Eu. cbn [hd_error]. rewrite cs_range_has. rewrite !bN_N2b by lia.
    destruct Hb as [(L & -> & ->)|(L & Hb & _)].
    + rewrite (boff_S n c E), Eu. cbn [List.length]. rewrite Nat.add_1_r. destruct (_ && _)%N; [|reflexivity]. cbn [pick]. destruct (K _); reflexivity.
    + assert (H128 : (hi < 128)%N). { destruct Hf as [Ha|[Hf|[Hf _]]]; [|lia|lia]. unfold ascii in Ha. rewrite Forall_forall in Ha. apply nth_error_In in E. specialize (Ha _ E). cbv beta in Ha. lia. }
      rewrite (proj2 (N.leb_gt (bN b) hi)), (proj2 (N.leb_gt c hi)) by lia. rewrite !andb_false_r. reflexivity.
  - assert (Hh : (256 <= hi)%N). { apply andb_false_iff in Eb. rewrite !N.ltb_ge in Eb. lia. }
    destruct (nth_error t n) as [c|] eqn:E.
    + pose proof (t_scalar n c E) as Hc. assert (R : forall r, In r (runes lo hi) -> blit s (utf8 r) (boff n) = [] \/ (blit s (utf8 r) (boff n) = [boff (S n)] /\ in_range c (lo, hi) = true)).
      { intros r Hr. apply in_runes in Hr. destruct (scalar_dec r) as [Sr|Sr].
        - rewrite (rune_at r n (or_introl Sr)), E. destruct (N.eqb_spec r c) as [->|N]; [|left; reflexivity]. right. split; [reflexivity|]. unfold in_range. cbn [fst snd]. rewrite !(proj2 (N.leb_le _ _)) by lia. reflexivity.
        - rewrite (utf8_bad r Sr), (rune_at _ n (or_introl scalar_fffd)), E. destruct (N.eqb_spec 65533 c) as [<-|N]; [|left; reflexivity]. right. split; [reflexivity|].
          destruct Hf as [Ha|[Hf|(_ & Hm & Hf)]].
          + unfold ascii in Ha. rewrite Forall_forall in Ha. apply nth_error_In in E. specialize (Ha _ E). cbv beta in Ha. lia.
          + lia.
          + assert (Su : surrogate r = true) by (destruct (surrogate r) eqn:Q; [reflexivity|exfalso; apply Sr; split; [exact Q|lia]]). unfold surrogate in Su. apply andb_true_iff in Su. rewrite !N.leb_le in Su.
            unfold in_range. cbn [fst snd]. rewrite !(proj2 (N.leb_le _ _)) by lia. reflexivity. }
      destruct ((lo <=? c) && (c <=? hi))%N eqn:Er.
      * apply andb_true_iff in Er. rewrite !N.leb_le in Er. apply (pick_map_one K _ (boff (S n)) _ c).
        -- apply in_runes. lia.
        -- rewrite (rune_at c n (or_introl Hc)), E, N.eqb_refl. reflexivity.
        -- intros r Hr. destruct (R r Hr) as [Q|[Q _]]; auto.
      * apply pick_map_none. intros r Hr. destruct (R r Hr) as [->|[_ Q]]; [reflexivity|]. unfold in_range in Q. cbn [fst snd] in Q. congruence.
    + apply pick_map_none. intros r Hr. destruct (scalar_dec r) as [Sr|Sr]; [rewrite (rune_at r n (or_introl Sr)), E; reflexivity|rewrite (utf8_bad r Sr), (rune_at _ n (or_introl scalar_fffd)), E; reflexivity].
Qed.
Lemma class_same : forall ranges, Forall range_fine ranges -> same (b_cls bb ranges) (one t (fun r => existsb (in_range r) ranges)).
Proof.
  intros ranges H K n Hn. cbn [b_cls bbase]. unfold one. induction H as [|[lo hi] ranges Hr H IH].
  - cbn. destruct (nth_error t n); reflexivity.
  - unfold bcls_lists in *. cbn [flat_map]. rewrite concat_app, pick_app, (range_same K lo hi n Hr Hn), IH. destruct (nth_error t n) as [c|]; [|reflexivity].
    cbn [existsb]. destruct (in_range c (lo, hi)); cbn [orb]; [|reflexivity]. cbn [pick]. destruct (K _) eqn:Ek; [reflexivity|]. destruct (existsb _ ranges); [|reflexivity]. cbn [pick]. rewrite Ek. reflexivity.
Qed.
Lemma ascii_one : forall f g, ascii t -> (forall b, (bN b < 128)%N -> f b = g (bN b)) -> same (bone s f) (one t g).
Proof.
  intros f g Ha H K n Hn. unfold bone, one. rewrite byte_at. destruct (nth_error t n) as [c|] eqn:E; [|reflexivity].
  destruct (utf8_shape c (t_scalar n c E)) as (b & bs & Eu & _ & Hb). rewrite Eu. cbn [hd_error].
  assert (L : (c < 128)%N) by (unfold ascii in Ha; rewrite Forall_forall in Ha; apply nth_error_In in E; exact (Ha _ E)).
  destruct Hb as [(_ & Hb & ->)|(Hb & _)]; [|lia]. rewrite H by lia. rewrite Hb. destruct (g c); [|reflexivity]. cbn [pick]. rewrite (boff_S n c E), Eu. cbn [List.length]. rewrite Nat.add_1_r. reflexivity.
Qed.
Lemma word_byte : forall b, word_char b = word_rune (Some (bN b)).
Proof. destruct b; reflexivity. Qed.
Lemma word_high : forall r, (128 <= r)%N -> word_rune (Some r) = false.
Proof. intros r H. cbn. rewrite !(proj2 (N.leb_gt r _)) by lia. rewrite !andb_false_r. rewrite (proj2 (N.eqb_neq r 95)) by lia. reflexivity. Qed.
Lemma assert_byte_spec : forall i a, empty_op_holds s i (assert_byte a) = assertion s i (match a with ABeginLine => 0 | AEndLine => 1 | ABeginText => 2 | AEndText => 3 | AWord => 4 | ANoWord => 5 end)%N.
Proof. intros i a. unfold empty_op_holds. destruct a; cbn [existsb assert_byte bN Byte.to_N]; cbn [N.testbit Pos.testbit N.pred Pos.pred_N]; cbn; rewrite ?orb_false_r; reflexivity. Qed.
(** the neighbours of a position, as far as assertions look at them *)
Definition sees (x : option byte) (y : option N) : Prop :=
  match x, y with
  | Some b, Some r => (bN b =? 10)%N = (r =? 10)%N /\ word_char b = word_rune (Some r)
  | None, None => True
  | _, _ => False
  end.
Lemma sees_after : forall n, sees (nth_error s (boff n)) (nth_error t n).
Proof.
  intro n. rewrite byte_at. destruct (nth_error t n) as [c|] eqn:E; [|exact Logic.I]. destruct (utf8_shape c (t_scalar n c E)) as (b & bs & Eu & _ & Hb). rewrite Eu. cbn [hd_error sees].
  rewrite word_byte. destruct Hb as [(L & -> & _)|(L & Hb & _)]; [auto|]. rewrite (word_high c), (word_high (bN b)) by lia. rewrite (proj2 (N.eqb_neq (bN b) 10)), (proj2 (N.eqb_neq c 10)) by lia. auto.
Qed.
Lemma sees_before : forall n, n <= List.length t -> sees (byte_before s (boff n)) (rune_before t n).
Proof.
  intros [|n] H; [exact Logic.I|]. cbn [rune_before]. destruct (nth_error t n) as [c|] eqn:E; [|apply nth_error_None in E; lia]. rewrite (byte_before_at n c E).
  destruct (last_byte c (t_scalar n c E)) as (b & -> & Hb). cbn [sees]. rewrite word_byte. destruct Hb as [(L & ->)|(L & Hb)]; [auto|]. unfold cont in Hb.
  rewrite (word_high c), (word_high (bN b)) by lia. rewrite (proj2 (N.eqb_neq (bN b) 10)), (proj2 (N.eqb_neq c 10)) by lia. auto.
Qed.
Lemma nl_byte : forall b, byte_eqb b x0a = (bN b =? 10)%N.
Proof.
  intro b. destruct (byte_eqb b x0a) eqn:E.
  - apply byte_eqb_eq in E. subst b. reflexivity.
  - apply byte_eqb_neq in E. symmetry. apply N.eqb_neq. intro H. apply E. apply bN_inj. exact H.
Qed.
Lemma assert_same : forall a n, n <= List.length t -> empty_op_holds s (boff n) (assert_byte a) = assert_holds t a n.
Proof.
  intros a n H. rewrite assert_byte_spec. pose proof (sees_before n H) as B. pose proof (sees_after n) as A. unfold assertion, assert_holds.
  destruct (byte_before s (boff n)) as [x|], (rune_before t n) as [x'|]; try destruct B as [B1 B2]; try destruct B;
    (destruct (nth_error s (boff n)) as [y|], (nth_error t n) as [y'|]; try destruct A as [A1 A2]; try destruct A);
    destruct a; rewrite ?nl_byte; unfold word_at; try reflexivity; try assumption; rewrite ?B2, ?A2; reflexivity.
Qed.
Definition usable1 (e : rx) : Prop :=
  match e with
  | RxLit _ rs => Forall fine rs
  | RxClass ranges => Forall range_fine ranges
  | RxAny | RxAnyNotNL => ascii t
  | _ => True
  end.
Lemma usable_leaf : forall e, usable1 e -> leaf_same e.
Proof.
  intros [| f rs | ranges | | | | | | | | | a |] H; try exact Logic.I; cbn [usable1 leaf_same] in *.
  - exact (lit_same rs H).
  - exact (class_same ranges H).
  - apply ascii_one; [exact H|reflexivity].
  - apply ascii_one; [exact H|]. intros b Hb. rewrite cs_compl_has, cs_new_has. cbn [existsb]. rewrite orb_false_r, nl_byte. reflexivity.
  - intros K n Hn. cbn [gends b_asr bbase rbase]. rewrite (assert_same a n Hn). destruct (assert_holds t a n); reflexivity.
Qed.
Lemma all_parts_impl : forall (P Q : rx -> Prop), (forall e, P e -> Q e) -> forall e, all_parts P e -> all_parts Q e.
Proof.
  intros P Q H. induction e using rx_ind'; intros [A B]; (split; [apply H; exact A|]); try exact Logic.I; try (apply IHe; exact B).
  - clear A. induction H0 as [|e es He H0 IH]; [exact Logic.I|]. destruct B as [B1 B2]. split; [apply He; exact B1|apply IH; exact B2].
  - clear A. induction H0 as [|e es He H0 IH]; [exact Logic.I|]. destruct B as [B1 B2]. split; [apply He; exact B1|apply IH; exact B2].
Qed.
Lemma all_parts_and : forall (P Q : rx -> Prop) e, all_parts P e -> all_parts Q e -> all_parts (fun e => P e /\ Q e) e.
Proof.
  intros P Q. induction e using rx_ind'; intros [A B] [A' B']; (split; [split; assumption|]); try exact Logic.I; try (apply IHe; assumption).
  - clear A A'. induction H as [|e es He H IH]; [exact Logic.I|]. destruct B as [B1 B2], B' as [C1 C2]. split; [apply He; assumption|apply IH; assumption].
  - clear A A'. induction H as [|e es He H IH]; [exact Logic.I|]. destruct B as [B1 B2], B' as [C1 C2]. split; [apply He; assumption|apply IH; assumption].
Qed.
Lemma good_usable : forall e, fits e -> ascii t \/ narrow e -> all_parts usable1 e.
Proof.
  intros e F [A|N].
  - eapply all_parts_impl; [|exact F]. intros e' F'. destruct e'; cbn [usable1]; try exact Logic.I; try exact A.
    + apply Forall_forall. intros r _. right. exact A.
    + destruct F' as [_ F']. eapply Forall_impl; [|exact F']. intros x Hx. split; [exact Hx|left; exact A].
  - eapply all_parts_impl; [|apply (all_parts_and _ _ _ F N)]. intros e' [F' N']. destruct e'; cbn [usable1 narrow1] in *; try exact Logic.I; try contradiction.
    + eapply Forall_impl; [|exact N']. intros r Hr. left. exact Hr.
    + destruct F' as [_ F']. rewrite Forall_forall in *. intros x Hx. split; [apply F'; exact Hx|right; apply N'; exact Hx].
Qed.
Lemma same_good : forall e, fits e -> ascii t \/ narrow e -> forall n, n <= List.length t -> hd_error (gends bb e (boff n)) = option_map boff (hd_error (ends t e n)).
Proof.
  intros e F G n Hn. assert (L : all_parts leaf_same e) by (eapply all_parts_impl; [apply usable_leaf|apply good_usable; assumption]).
  pose proof (all_same e F L Some n Hn) as Q. rewrite (gends_ends e F n) in Q. destruct (gends bb e (boff n)), (ends t e n); cbn in *; congruence.
Qed.

(* ---------- inside of a character ---------- *)
Section Mid.
Variable i : nat.
Variables b c : byte.
Hypothesis Mi : i <= List.length s.
Hypothesis Mb : nth_error s i = Some b.
Hypothesis Mc : cont b.
Hypothesis Mp : byte_before s i = Some c.
Hypothesis Mq : (128 <= bN c)%N.
Lemma mid_lit : forall r, blit s (utf8 r) i = [].
Proof.
  intro r. unfold blit. destruct (beqb _ _) eqn:E; [|reflexivity]. exfalso. apply beqb_eq in E.
  assert (Q : hd_error (utf8 r) = Some b).
  { rewrite <- E. rewrite skipn_nth_error, Mb. pose proof (utf8_len r). destruct (List.length (utf8 r)); [lia|reflexivity]. }
  assert (H : exists r', utf8 r = utf8 r' /\ scalar r') by (destruct (scalar_dec r) as [S|S]; [exists r; auto|exists 65533%N; split; [apply utf8_bad; exact S|exact scalar_fffd]]).
  destruct H as (r' & Er & S). destruct (utf8_shape r' S) as (x & xs & Ex & _ & Hx). rewrite Er, Ex in Q. cbn in Q. injection Q as ->. unfold cont in Mc. destruct Hx as [(L & L2 & _)|(_ & L & _)]; lia.
Qed.
Lemma mid_ends : forall e, fits e -> narrow e -> forall j, In j (gends bb e i) -> j = i /\ forall n, n <= List.length t -> In n (gends rbase e n).
Proof.
  induction e using rx_ind'; intros F N j Hj.
  - destruct Hj as [<-|[]]. split; [reflexivity|]. intros. left. reflexivity.
  - cbn [gends b_lit bbase] in Hj. destruct rs as [|r rs].
    + unfold blit in Hj. cbn in Hj. rewrite Nat.add_0_r in Hj. destruct Hj as [<-|[]]. split; [reflexivity|]. intros. left. reflexivity.
    + exfalso. cbn [utf8s flat_map] in Hj. rewrite blit_app, mid_lit in Hj. destruct Hj.
  - exfalso. destruct N as [N _]. cbn [gends b_cls bbase narrow1] in *. apply in_concat in Hj. destruct Hj as (l & Hl & Hj). unfold bcls_lists in Hl. apply in_flat_map in Hl. destruct Hl as ((lo & hi) & Hr & Hl).
    rewrite Forall_forall in N. specialize (N _ Hr). cbn [fst snd] in N. destruct ((lo <? 256) && (hi <? 256))%N eqn:Eb.
    + apply andb_true_iff in Eb. rewrite !N.ltb_lt in Eb. destruct Hl as [<-|[]]. unfold bone in Hj. rewrite Mb in Hj. rewrite cs_range_has, !bN_N2b in Hj by lia. unfold cont in Mc. rewrite (proj2 (N.leb_gt (bN b) hi)) in Hj by lia. rewrite andb_false_r in Hj. destruct Hj.
    + apply in_map_iff in Hl. destruct Hl as (r & <- & _). rewrite mid_lit in Hj. destruct Hj.
  - destruct N as [[] _].
  - destruct N as [[] _].
  - destruct F as [_ F], N as [_ N]. apply all_parts_list in F. apply all_parts_list in N. rewrite gends_concat in Hj. setoid_rewrite gends_concat. revert j Hj.
    induction H as [|e es He H IH]; intros j Hj; [destruct Hj as [<-|[]]; split; [reflexivity|intros; left; reflexivity]|]. inversion F; subst. inversion N; subst. cbn [gseq] in *.
    apply in_flat_map in Hj. destruct Hj as (x & Hx & Hj). destruct (He H2 H4 x Hx) as [-> A]. destruct (IH H3 H5 j Hj) as [-> B]. split; [reflexivity|]. intros n Hn. apply in_flat_map. exists n. auto.
  - destruct F as [_ F], N as [_ N]. apply all_parts_list in F. apply all_parts_list in N. rewrite gends_alt in Hj. setoid_rewrite gends_alt. apply in_flat_map in Hj. destruct Hj as (e & He & Hj).
    rewrite Forall_forall in H, F, N. destruct (H e He (F e He) (N e He) j Hj) as [-> A]. split; [reflexivity|]. intros n Hn. apply in_flat_map. exists e. auto.
  - apply IHe; [apply F|apply N|exact Hj].
  - destruct F as [[_ Fn] F], N as [_ N]. pose proof (bends_ahead s e F) as A. pose proof (rends_ahead e F) as A'. rewrite Fn in A, A'. cbn [negb] in A, A'. cbn [gends] in *.
    rewrite (star_unroll bb) in Hj by (exact A || exact Mi). apply in_app_or in Hj. destruct Hj as [Hj|[<-|[]]].
    + exfalso. apply in_flat_map in Hj. destruct Hj as (x & Hx & _). destruct (IHe F N x Hx) as [-> _]. destruct (A i i Mi Hx). lia.
    + split; [reflexivity|]. intros n Hn. rewrite (star_unroll rbase) by (exact A' || exact Hn). apply in_or_app. right. left. reflexivity.
  - destruct F as [[_ Fn] F], N as [_ N]. pose proof (bends_ahead s e F) as A. rewrite Fn in A. cbn [negb] in A. cbn [gends] in *. exfalso. apply in_flat_map in Hj. destruct Hj as (x & Hx & _). destruct (IHe F N x Hx) as [-> _]. destruct (A i i Mi Hx). lia.
  - destruct F as [_ F], N as [_ N]. cbn [gends] in *. apply in_app_or in Hj. assert (Ej : j = i) by (destruct Hj as [Hj|[<-|[]]]; [apply (IHe F N j Hj)|reflexivity]). split; [exact Ej|].
    intros n Hn. apply in_or_app. right. left. reflexivity.
  - exfalso. destruct N as [N _]. cbn [gends b_asr bbase narrow1] in *. rewrite assert_byte_spec in Hj. unfold assertion in Hj. rewrite Mb, Mp in Hj. unfold word_at in Hj. rewrite !nl_byte in Hj. unfold cont in Mc.
    rewrite !word_byte, (word_high (bN b)), (word_high (bN c)) in Hj by lia. rewrite (proj2 (N.eqb_neq (bN b) 10)), (proj2 (N.eqb_neq (bN c) 10)) in Hj by lia. destruct a; try destruct Hj; destruct N.
  - destruct F as [[] _].
Qed.
End Mid.
Lemma ascii_bytes : ascii t -> forall i b, nth_error s i = Some b -> (bN b < 128)%N.
Proof.
  intros A i b H. apply nth_error_In in H. unfold utf8s in H. apply in_flat_map in H. destruct H as (r & Hr & Hb). unfold ascii in A. rewrite Forall_forall in A, Ht. specialize (A r Hr). cbv beta in A.
  destruct (utf8_cases r (Ht r Hr)) as [[L E]|[[L E]|[[L E]|[L E]]]]; try lia. rewrite E in Hb. destruct Hb as [<-|[]]. rewrite bN_N2b by lia. exact A.
Qed.

(* ---------- the search ---------- *)
Variable CS : Type.
Variable check : nat -> CS -> list byte -> list byte -> nat -> Z -> Z -> CS * option nat.
Notation peg := (peg s check).
Lemma search_peg : forall p (f : nat -> pres) w, (forall i, i <= List.length s -> peg [] p i w (f i) w) ->
  (forall i0, i0 <= List.length s -> f i0 <> RFail -> (forall i, i < i0 -> f i = RFail) -> peg [] (PSearch p) 0 w (f i0) w) /\
  ((forall i, i <= List.length s -> f i = RFail) -> peg [] (PSearch p) 0 w RFail w).
Proof.
  intros p f w H. split.
  - intros i0 Hi Hf Hb. assert (Q : forall d i, i + d = i0 -> peg [] (PSearch p) i w (f i0) w).
    { induction d as [|d IH]; intros i E.
      - replace i0 with i in * by lia. apply peg_search_here; [apply H; exact Hi|exact Hf].
      - eapply peg_search_next; [rewrite <- (Hb i) by lia; apply H; lia|lia|]. apply IH. lia. }
    apply (Q i0). lia.
  - intro Hb. assert (Q : forall d i, i + d = List.length s -> peg [] (PSearch p) i w RFail w).
    { induction d as [|d IH]; intros i E.
      - eapply peg_search_end; [rewrite <- (Hb i) by lia; apply H; lia|lia].
      - eapply peg_search_next; [rewrite <- (Hb i) by lia; apply H; lia|lia|]. apply IH. lia. }
    apply (Q (List.length s)). lia.
Qed.
Lemma from_regexp_peg : forall e n p n', fits e -> ascii t \/ narrow e -> from_regexp e n = Some (p, n') -> forall w,
  (forall a m, leftmost_first t e a m -> peg [] p 0 w (RSucc (boff m) [CNode 0 (boff a) (boff m - boff a) []]) w) /\
  (no_match t e -> peg [] p 0 w RFail w).
Proof.
  intros e n p n' F G Q w. unfold from_regexp in Q. destruct (verify e); [|discriminate]. destruct (pi e n PEmpty) as [q n1] eqn:Eq. injection Q as <- <-.
  set (f := fun i => match hd_error (gends bb e i) with Some m => RSucc m [CNode 0 i (m - i) []] | None => RFail end).
  assert (H : forall i, i <= List.length s -> peg [] (PCap q 0) i w (f i) w).
  { intros i Hi. pose proof (convert_peg s CS check e n q n1 i w F Eq Hi) as P. unfold f. destruct (hd_error (gends bb e i)) as [m|]; cbn [res] in P; [apply (peg_cap_ok _ _ _ _ _ _ _ _ [])|apply peg_cap_no; [|discriminate]]; exact P. }
  assert (Hb : forall k, k <= List.length t -> (forall a, a < k -> ends t e a = []) -> (k = List.length t -> True) -> forall i, i < boff k -> f i = RFail).
  { intros k Hk Hn _ i Hi. assert (Hi' : i <= List.length s) by (pose proof (boff_le k Hk); lia). unfold f. destruct (position i Hi') as [(m & M1 & ->)|(b & c & P1 & P2 & P3 & P4)].
    - assert (m < k) by (destruct (Nat.lt_ge_cases m k) as [L|L]; [exact L|exfalso; destruct (Nat.eq_dec m k) as [->|N]; [lia|]; pose proof (boff_lt k m ltac:(lia) M1); lia]).
      rewrite (same_good e F G m M1), (Hn m) by assumption. reflexivity.
    - assert (K : 0 < k) by (destruct k; [rewrite boff_0 in Hi; lia|lia]). destruct G as [A|N]; [pose proof (ascii_bytes A i b P1); unfold cont in P2; lia|].
      destruct (gends bb e i) as [|j l] eqn:Eg; [reflexivity|]. exfalso. destruct (mid_ends i b c Hi' P1 P2 P3 P4 e F N j) as [_ X]; [rewrite Eg; left; reflexivity|].
      specialize (X 0 ltac:(lia)). rewrite (gends_ends e F 0), (Hn 0 K) in X. destruct X. }
  destruct (search_peg (PCap q 0) f w H) as [S1 S2]. split.
  - intros a m (La & (more & Em) & Hn). assert (Ef : f (boff a) = RSucc (boff m) [CNode 0 (boff a) (boff m - boff a) []]) by (unfold f; rewrite (same_good e F G a La), Em; reflexivity).
    rewrite <- Ef. apply S1; [apply boff_le; exact La|rewrite Ef; discriminate|]. apply Hb; [exact La|exact Hn|auto].
  - intro Hn. apply S2. intros i Hi. destruct (Nat.eq_dec i (List.length s)) as [->|N].
    + rewrite <- boff_end. unfold f. rewrite (same_good e F G (List.length t) (le_n _)), Hn by lia. reflexivity.
    + apply (Hb (List.length t)); [lia|intros a Ha; apply Hn; lia|auto|]. rewrite boff_end. lia.
Qed.
End Text.
