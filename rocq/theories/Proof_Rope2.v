(** Ropes: lines and columns. *)
From Coq Require Import ZArith.
From Verif Require Import Base Model_Rope Spec_Rope Proof_Rope.
Local Open Scope nat_scope.

Section Lines.
Variable c : byte.
Notation loc_of := (loc_of c).
Notation step := (step_loc c).

Lemma addlocs_eq : forall a b, (0 <= l_line a)%Z -> (0 <= l_line b)%Z ->
  addlocs a b = Loc (l_line a + l_line b) (if l_line b =? 0 then l_col a + l_col b else l_col b)%Z.
Proof.
  intros [la ca] [lb cb] Ha Hb. unfold addlocs. cbn [l_line l_col] in *.
  destruct (Z.eqb_spec la 0), (Z.eqb_spec lb 0); cbn [negb andb]; subst; f_equal; lia.
Qed.
Lemma loc_snoc : forall b x, loc_of (b ++ [x]) = step (loc_of b) x.
Proof. intros. unfold Spec_Rope.loc_of. rewrite fold_left_app. reflexivity. Qed.
Lemma line_pos : forall b, (0 <= l_line (loc_of b))%Z /\ (0 <= l_col (loc_of b))%Z.
Proof.
  induction b as [|x b IH] using rev_ind; [cbn; lia|]. rewrite loc_snoc. unfold step_loc. destruct (byte_eqb x c); cbn; lia.
Qed.
Lemma loc_app : forall a b, loc_of (a ++ b) = addlocs (loc_of a) (loc_of b).
Proof.
  intros a b. pose proof (line_pos a) as [A _]. induction b as [|x b IH] using rev_ind.
  - rewrite app_nil_r, addlocs_eq by (cbn; lia). cbn. destruct (loc_of a). cbn. f_equal; lia.
  - pose proof (line_pos b) as [B _]. rewrite app_assoc, !loc_snoc, IH. pose proof (line_pos (b ++ [x])) as [C _]. rewrite loc_snoc in C.
    rewrite !addlocs_eq by assumption. unfold step_loc in *. destruct (byte_eqb x c); cbn [l_line l_col] in *.
    + rewrite (proj2 (Z.eqb_neq (l_line (loc_of b) + 1) 0)) by lia. f_equal. lia.
    + destruct (l_line (loc_of b) =? 0)%Z; f_equal; lia.
Qed.
Lemma loc_nosep : forall u, ~ In c u -> loc_of u = Loc 0 (Z.of_nat (List.length u)).
Proof.
  induction u as [|x u IH] using rev_ind; intro H; [reflexivity|]. rewrite loc_snoc, IH by (intro K; apply H; apply in_or_app; tauto).
  unfold step_loc. rewrite (proj2 (byte_eqb_neq x c)); [|intros ->; apply H; apply in_or_app; cbn; tauto]. rewrite app_length. cbn [l_line l_col List.length]. f_equal. lia.
Qed.
Lemma loc_cons : forall u p, ~ In c u -> loc_of (u ++ c :: p) = Loc (1 + l_line (loc_of p)) (l_col (loc_of p)).
Proof.
  intros u p H. rewrite loc_app. change (c :: p) with ([c] ++ p). rewrite loc_app, loc_nosep by exact H. pose proof (line_pos p) as [A B].
  assert (E : loc_of [c] = Loc 1 0) by (cbn; unfold step_loc; rewrite byte_eqb_refl; reflexivity). rewrite E.
  rewrite (addlocs_eq (Loc 1 0)) by (cbn [l_line l_col]; lia). rewrite addlocs_eq by (cbn [l_line l_col]; lia). cbn [l_line l_col].
  rewrite (proj2 (Z.eqb_neq (1 + _) 0)) by lia. destruct (_ =? 0)%Z; f_equal; lia.
Qed.
Lemma loc_col_le : forall b, (l_col (loc_of b) <= Z.of_nat (List.length b))%Z.
Proof.
  induction b as [|x b IH] using rev_ind; [cbn; lia|]. rewrite loc_snoc, app_length. unfold step_loc. destruct (byte_eqb x c); cbn; lia.
Qed.

(* ---------- package bytes with the separator [c] ---------- *)
Lemma prefix1 : forall x b, prefixb [c] (x :: b) = byte_eqb c x.
Proof. intros. cbn. apply andb_true_r. Qed.
Lemma bindex_none : forall b, bindex b [c] = None <-> ~ In c b.
Proof.
  induction b as [|x b IH]; [cbn; tauto|]. cbn [bindex]. rewrite prefix1. destruct (byte_eqb c x) eqn:E.
  - apply byte_eqb_eq in E. subst x. split; [discriminate|]. intro H. exfalso. apply H. left. reflexivity.
  - apply byte_eqb_neq in E. destruct (bindex b [c]) as [i|]; cbn [option_map].
    + split; [discriminate|]. intro H. exfalso. assert (K : Some i = None) by (apply IH; intro K; apply H; right; exact K). discriminate K.
    + split; [|reflexivity]. intros _ [H|H]; [congruence|]. apply IH; [reflexivity|exact H].
Qed.
Lemma bindex_some : forall u b, ~ In c u -> bindex (u ++ c :: b) [c] = Some (List.length u).
Proof.
  induction u as [|x u IH]; intros b H.
  - cbn [app]. cbn [bindex]. rewrite prefix1, byte_eqb_refl. reflexivity.
  - cbn [app bindex]. rewrite prefix1, (proj2 (byte_eqb_neq c x)) by (intros ->; apply H; left; reflexivity).
    rewrite IH by (intro K; apply H; right; exact K). reflexivity.
Qed.
Lemma first_sep : forall b, ~ In c b \/ exists u v, b = u ++ c :: v /\ ~ In c u.
Proof.
  induction b as [|x b IH]; [left; intros []|]. destruct (byte_eqb x c) eqn:E.
  - apply byte_eqb_eq in E. subst x. right. exists [], b. split; [reflexivity|intros []].
  - apply byte_eqb_neq in E. destruct IH as [IH|(u & v & -> & IH)]; [left; intros [H|H]; [congruence|contradiction]|].
    right. exists (x :: u), v. split; [reflexivity|]. intros [H|H]; [congruence|contradiction].
Qed.
Lemma skip_sep : forall u v, skipn (List.length u + List.length [c]) (u ++ c :: v) = v.
Proof. intros u v. rewrite skipn_app, skipn_all2 by lia. cbn [List.length]. replace (List.length u + 1 - List.length u) with 1 by lia. reflexivity. Qed.
Lemma bcount_loc : forall n b, List.length b < n -> Z.of_nat (bcount_f n b [c]) = l_line (loc_of b).
Proof.
  induction n as [|n IH]; intros b H; [lia|]. cbn [bcount_f]. destruct (first_sep b) as [N|(u & v & -> & N)].
  - rewrite (proj2 (bindex_none b) N), loc_nosep by exact N. reflexivity.
  - rewrite bindex_some by exact N. rewrite loc_cons by exact N. rewrite skip_sep. cbn [l_line]. rewrite <- IH; [lia|]. rewrite app_length in H. cbn in H. lia.
Qed.
Lemma blast_none : forall b, ~ In c b -> blast b [c] = None.
Proof.
  induction b as [|x b IH]; intro H; [reflexivity|]. cbn [blast]. rewrite IH by (intro K; apply H; right; exact K).
  rewrite prefix1, (proj2 (byte_eqb_neq c x)); [reflexivity|]. intros ->. apply H. left. reflexivity.
Qed.
Lemma blast_some : forall b, In c b -> exists i, blast b [c] = Some i /\ (Z.of_nat (List.length b) - (Z.of_nat i + 1) = l_col (loc_of b))%Z.
Proof.
  induction b as [|x b IH]; intro H; [destruct H|]. cbn [blast]. destruct (in_dec Byte.byte_eq_dec c b) as [K|K].
  - destruct (IH K) as (i & E & L). rewrite E. exists (S i). split; [reflexivity|].
    change (x :: b) with ([x] ++ b). rewrite loc_app. pose proof (line_pos b) as [A B]. rewrite addlocs_eq; [|apply line_pos|exact A]. cbn [l_col].
    destruct (Z.eqb_spec (l_line (loc_of b)) 0) as [Z0|Z0]; [|rewrite <- L, app_length; cbn [List.length]; lia].
    exfalso. destruct (first_sep b) as [N|(u & v & -> & N)]; [contradiction|]. rewrite loc_cons in Z0 by exact N. cbn [l_line] in Z0. pose proof (line_pos v). lia.
  - destruct H as [->|H]; [|contradiction]. rewrite blast_none by exact K. rewrite prefix1, byte_eqb_refl. exists 0. split; [reflexivity|].
    change (c :: b) with ([] ++ c :: b). rewrite loc_cons by (intros []). cbn [l_col app List.length]. rewrite loc_nosep by exact K. cbn [l_col]. lia.
Qed.
Lemma llen_loc : forall b, llen b [c] = loc_of b.
Proof.
  intro b. unfold llen, bcount. pose proof (bcount_loc (S (List.length b)) b ltac:(lia)) as Hn. destruct (in_dec Byte.byte_eq_dec c b) as [K|K].
  - assert (L : (l_line (loc_of b) <> 0)%Z).
    { destruct (first_sep b) as [N|(u & v & -> & N)]; [contradiction|]. rewrite loc_cons by exact N. cbn [l_line]. pose proof (line_pos v). lia. }
    destruct (Nat.eqb_spec (bcount_f (S (List.length b)) b [c]) 0) as [E|E]; [lia|]. cbv zeta. destruct (blast_some b K) as (i & -> & Hi). cbn [List.length].
    destruct (loc_of b) as [l k]. cbn [l_line l_col] in *. f_equal; lia.
  - rewrite loc_nosep in * by exact K. cbn [l_line] in Hn. rewrite (proj2 (Nat.eqb_eq _ 0)) by lia. reflexivity.
Qed.

Lemma firstn_in : forall n (b : list byte) x, In x (firstn n b) -> In x b.
Proof. intros n b x H. rewrite <- (firstn_skipn n b). apply in_or_app. left. exact H. Qed.
Lemma line_col_loc : forall n b pos line last, pos <= List.length b -> last <= pos -> List.length b - last < n -> (0 <= line)%Z ->
  line_col_f n b [c] pos line last = Loc (line + l_line (loc_of (firstn (pos - last) (skipn last b)))) (l_col (loc_of (firstn (pos - last) (skipn last b)))).
Proof.
  induction n as [|n IH]; intros b pos line last Hp Hl Hn Hz; [lia|]. cbn [line_col_f].
  set (s := skipn last b). assert (Ls : List.length s = List.length b - last) by (unfold s; apply skipn_length).
  destruct (first_sep s) as [N|(u & v & Es & N)].
  - rewrite (proj2 (bindex_none s) N). rewrite loc_nosep by (intro K; apply N; eapply firstn_in; exact K). rewrite firstn_length_le by lia. cbn [l_line l_col]. f_equal; lia.
  - rewrite Es, bindex_some by exact N. rewrite Es in Ls. rewrite app_length in Ls. cbn [List.length] in Ls.
    destruct (Nat.leb_spec pos (last + List.length u)) as [G|G].
    + rewrite firstn_app. replace (pos - last - List.length u) with 0 by lia. cbn [firstn]. rewrite app_nil_r.
      rewrite loc_nosep by (intro K; apply N; eapply firstn_in; exact K). rewrite firstn_length_le by lia. cbn [l_line l_col]. f_equal; lia.
    + rewrite IH by (cbn [List.length]; lia). rewrite firstn_app, (firstn_all2 (n := pos - last)) by lia.
      replace (pos - last - List.length u) with (S (pos - (last + (List.length u + List.length [c])))) by (cbn [List.length]; lia). cbn [firstn].
      rewrite loc_cons by exact N. rewrite skipn_add. fold s. rewrite Es, skip_sep. cbn [l_line l_col]. f_equal; lia.
Qed.
Lemma line_col_spec : forall b pos, pos <= List.length b -> line_col b [c] pos = loc_of (firstn pos b).
Proof.
  intros b pos H. unfold line_col. rewrite line_col_loc by lia. rewrite Nat.sub_0_r. cbn [skipn]. rewrite Z.add_0_l. destruct (loc_of (firstn pos b)); reflexivity.
Qed.

Lemma index_loop_spec : forall n p q index idx, Z.of_nat n = l_line (loc_of p) ->
  exists o, index_loop n (p ++ q) [c] index idx = ((index + Z.of_nat (List.length p) - l_col (loc_of p) - Z.of_nat n)%Z, o) /\ (o = None <-> n = 0 /\ idx = None).
Proof.
  induction n as [|n IH]; intros p q index idx H; cbn [index_loop].
  - destruct (first_sep p) as [N|(u & v & -> & N)]; [|rewrite loc_cons in H by exact N; cbn [l_line] in H; pose proof (line_pos v); lia].
    exists idx. rewrite loc_nosep by exact N. cbn [l_col]. split; [f_equal; lia|tauto].
  - destruct (first_sep p) as [N|(u & v & -> & N)]; [rewrite loc_nosep in H by exact N; cbn [l_line] in H; lia|].
    rewrite loc_cons in * by exact N. cbn [l_line l_col] in *. rewrite <- app_assoc. cbn [app]. rewrite bindex_some, skip_sep by exact N.
    destruct (IH v q (index + Z.of_nat (List.length u))%Z (Some (List.length u)) ltac:(lia)) as (o & E & K). exists o. rewrite E. split.
    + f_equal. rewrite app_length. cbn [List.length]. lia.
    + rewrite K. split; [intros [_ D]; discriminate D|intros [D _]; discriminate D].
Qed.
Lemma index_n_spec : forall p q, (index_n (p ++ q) [c] (l_line (loc_of p)) + 1 + l_col (loc_of p) = Z.of_nat (List.length p))%Z.
Proof.
  intros p q. pose proof (line_pos p) as [A _]. unfold index_n. destruct (index_loop_spec (Z.to_nat (l_line (loc_of p))) p q 0 None ltac:(lia)) as (o & -> & K).
  destruct o as [i|].
  - assert (Z.to_nat (l_line (loc_of p)) <> 0) by (intro E; assert (D : Some i = None) by (apply K; auto); discriminate D). cbn [List.length]. lia.
  - destruct (proj1 K eq_refl) as [E _]. destruct (first_sep p) as [N|(u & v & -> & N)]; [|rewrite loc_cons in E by exact N; cbn [l_line] in E; pose proof (line_pos v); lia].
    rewrite loc_nosep by exact N. cbn [l_col]. lia.
Qed.
Lemma offset_spec : forall b p, p <= List.length b -> (index_n b [c] (l_line (loc_of (firstn p b))) + Z.of_nat (List.length [c]) + l_col (loc_of (firstn p b)) = Z.of_nat p)%Z.
Proof.
  intros b p H. pose proof (index_n_spec (firstn p b) (skipn p b)) as E. rewrite firstn_skipn, firstn_length_le in E by exact H. exact E.
Qed.

(* ---------- comparing positions ---------- *)
Lemma lcmp_refl : forall a, lcmp a a = Eq.
Proof. intros [l k]. unfold lcmp. cbn [l_line l_col]. rewrite Z.eqb_refl. apply Z.compare_refl. Qed.
Lemma lcmp_more : forall a m, m <> [] -> lcmp (loc_of a) (loc_of (a ++ m)) = Lt /\ lcmp (loc_of (a ++ m)) (loc_of a) = Gt.
Proof.
  intros a m Hm. rewrite loc_app. pose proof (line_pos a) as [A1 A2]. pose proof (line_pos m) as [B1 B2]. rewrite addlocs_eq by assumption. unfold lcmp. cbn [l_line l_col].
  assert (M : l_line (loc_of m) = 0%Z -> (0 < l_col (loc_of m))%Z).
  { intro E. destruct (first_sep m) as [N|(u & v & -> & N)]; [|rewrite loc_cons in E by exact N; cbn [l_line] in E; pose proof (line_pos v); lia].
    rewrite loc_nosep by exact N. cbn [l_col]. destruct m; [contradiction|]. cbn [List.length]. lia. }
  destruct (Z.eqb_spec (l_line (loc_of m)) 0) as [E|E].
  - specialize (M E). rewrite E, Z.add_0_r, Z.eqb_refl. split; [apply Z.compare_lt_iff; lia|apply Z.compare_gt_iff; lia].
  - rewrite (proj2 (Z.eqb_neq _ _)), (proj2 (Z.eqb_neq _ _)) by lia. rewrite (proj2 (Z.ltb_lt _ _)) by lia. rewrite (proj2 (Z.ltb_ge _ _)) by lia. auto.
Qed.
Lemma firstn_more : forall (b : list byte) p q, p < q <= List.length b -> exists m, m <> [] /\ firstn q b = firstn p b ++ m.
Proof.
  intros b p q H. exists (skipn p (firstn q b)). split.
  - intro E. pose proof (skipn_length p (firstn q b)) as L. rewrite E, firstn_length_le in L by lia. cbn in L. lia.
  - rewrite <- (firstn_skipn p (firstn q b)) at 1. rewrite firstn_firstn, Nat.min_l by lia. reflexivity.
Qed.
Lemma lcmp_spec : forall b p q, p <= List.length b -> q <= List.length b -> lcmp (loc_of (firstn p b)) (loc_of (firstn q b)) = Nat.compare p q.
Proof.
  intros b p q Hp Hq. destruct (Nat.compare_spec p q) as [->|G|G]; [apply lcmp_refl| |].
  - destruct (firstn_more b p q ltac:(lia)) as (m & Hm & ->). apply lcmp_more. exact Hm.
  - destruct (firstn_more b q p ltac:(lia)) as (m & Hm & ->). apply lcmp_more. exact Hm.
Qed.
Lemma sub_add : forall a b, sublocs (loc_of (a ++ b)) (loc_of a) = loc_of b.
Proof.
  intros a b. rewrite loc_app. pose proof (line_pos a) as [A1 A2]. pose proof (line_pos b) as [B1 B2]. rewrite addlocs_eq by assumption. unfold sublocs. cbn [l_line l_col].
  destruct (Z.eqb_spec (l_line (loc_of b)) 0) as [E|E].
  - rewrite E, Z.add_0_r, Z.eqb_refl. destruct (loc_of b) as [l k]. cbn [l_line l_col] in *. f_equal; lia.
  - rewrite (proj2 (Z.eqb_neq _ _)) by lia. destruct (loc_of b) as [l k]. cbn [l_line l_col] in *. f_equal; lia.
Qed.
Lemma sub_neg : forall a b y, b <> [] -> maxloc lzero (minloc (sublocs (loc_of a) (loc_of (a ++ b))) (loc_of y)) = lzero.
Proof.
  intros a b y Hb. rewrite loc_app. pose proof (line_pos a) as [A1 A2]. pose proof (line_pos b) as [B1 B2]. pose proof (line_pos y) as [Y1 Y2]. pose proof (lcmp_more a b Hb) as [M _].
  rewrite loc_app, addlocs_eq in M by assumption. rewrite addlocs_eq by assumption. unfold lcmp in M. unfold sublocs. cbn [l_line l_col] in *.
  destruct (Z.eqb_spec (l_line (loc_of a)) (l_line (loc_of a) + l_line (loc_of b))) as [E|E].
  - rewrite Z.compare_lt_iff in M. set (k := if (l_line (loc_of b) =? 0)%Z then (l_col (loc_of a) + l_col (loc_of b))%Z else l_col (loc_of b)) in *.
    assert (H1 : minloc (Loc (l_line (loc_of a) - (l_line (loc_of a) + l_line (loc_of b))) (l_col (loc_of a) - k)) (loc_of y) = Loc (l_line (loc_of a) - (l_line (loc_of a) + l_line (loc_of b))) (l_col (loc_of a) - k)).
    { unfold minloc, lcmp. cbn [l_line l_col]. destruct (Z.eqb_spec (l_line (loc_of a) - (l_line (loc_of a) + l_line (loc_of b))) (l_line (loc_of y))).
      - rewrite (proj2 (Z.compare_lt_iff _ _)) by lia. reflexivity.
      - rewrite (proj2 (Z.ltb_lt _ _)) by lia. reflexivity. }
    rewrite H1. unfold maxloc, lcmp, lzero. cbn [l_line l_col]. rewrite (proj2 (Z.eqb_eq _ _)) by lia. rewrite (proj2 (Z.compare_gt_iff _ _)) by lia. reflexivity.
  - unfold minloc, lcmp. cbn [l_line l_col]. rewrite (proj2 (Z.eqb_neq _ _)) by lia. rewrite (proj2 (Z.ltb_lt _ _)) by lia.
    unfold maxloc, lcmp, lzero. cbn [l_line l_col]. rewrite (proj2 (Z.eqb_neq _ _)) by lia. rewrite (proj2 (Z.ltb_ge _ _)) by lia. reflexivity.
Qed.
Lemma maxzero : forall y, maxloc lzero (loc_of y) = loc_of y.
Proof.
  intro y. unfold maxloc. destruct y as [|x y]; [reflexivity|]. pose proof (lcmp_more [] (x :: y)) as M. cbn [app] in M.
  change lzero with (loc_of []). rewrite (proj1 (M ltac:(discriminate))). reflexivity.
Qed.
Lemma minloc_spec : forall b p q, p <= List.length b -> q <= List.length b -> minloc (loc_of (firstn p b)) (loc_of (firstn q b)) = loc_of (firstn (Nat.min p q) b).
Proof.
  intros b p q Hp Hq. unfold minloc. rewrite lcmp_spec by assumption. destruct (Nat.compare_spec p q) as [->|G|G].
  - rewrite Nat.min_id. reflexivity.
  - rewrite Nat.min_l by lia. reflexivity.
  - rewrite Nat.min_r by lia. reflexivity.
Qed.
Lemma eqb_spec : forall b p q, p <= List.length b -> q <= List.length b -> loc_eqb (loc_of (firstn p b)) (loc_of (firstn q b)) = (p =? q).
Proof.
  intros b p q Hp Hq. pose proof (lcmp_spec b p q Hp Hq) as M. destruct (Nat.eqb_spec p q) as [->|N].
  - unfold loc_eqb. rewrite !Z.eqb_refl. reflexivity.
  - destruct (loc_eqb _ _) eqn:E; [|reflexivity]. exfalso. unfold loc_eqb in E. apply andb_true_iff in E. destruct E as [E1 E2]. apply Z.eqb_eq in E1, E2.
    unfold lcmp in M. rewrite E1, E2, Z.eqb_refl, Z.compare_refl in M. symmetry in M. apply Nat.compare_eq in M. contradiction.
Qed.

Lemma loc_line : forall b, l_line (loc_of b) = Z.of_nat (count_occ Byte.byte_eq_dec b c).
Proof.
  induction b as [|x b IH] using rev_ind; [reflexivity|]. rewrite loc_snoc, count_occ_app. unfold step_loc. cbn [count_occ].
  destruct (Byte.byte_eq_dec x c) as [->|N]; [rewrite byte_eqb_refl|rewrite (proj2 (byte_eqb_neq x c)) by exact N]; cbn [l_line]; rewrite IH; lia.
Qed.
Lemma loc_meaning : forall b pos, pos <= List.length b ->
  l_line (loc_of (firstn pos b)) = Z.of_nat (count_occ Byte.byte_eq_dec (firstn pos b) c) /\
  exists k, l_col (loc_of (firstn pos b)) = Z.of_nat k /\ k <= pos /\
    ~ In c (firstn k (skipn (pos - k) b)) /\ (k = pos \/ nth_error b (pos - k - 1) = Some c).
Proof.
  intros b pos H. split; [apply loc_line|]. induction pos as [|pos IH]; [exists 0; cbn; auto|].
  destruct (IH ltac:(lia)) as (k & Ek & Kp & Kn & Kl). destruct (nth_error b pos) as [x|] eqn:Ex; [|apply nth_error_None in Ex; lia].
  assert (Es : firstn (S pos) b = firstn pos b ++ [x]) by (clear - Ex; revert b Ex; induction pos as [|pos IH]; intros [|y b] E; try discriminate; cbn in *; [congruence|rewrite IH by exact E; reflexivity]).
  rewrite Es, loc_snoc. unfold step_loc. destruct (byte_eqb x c) eqn:Ec.
  - apply byte_eqb_eq in Ec. subst x. exists 0. cbn [l_col]. split; [reflexivity|]. split; [lia|]. split; [intros []|]. right. replace (S pos - 0 - 1) with pos by lia. exact Ex.
  - apply byte_eqb_neq in Ec. exists (S k). cbn [l_col]. split; [lia|]. split; [lia|]. replace (S pos - S k) with (pos - k) by lia. split.
    + assert (E2 : firstn (S k) (skipn (pos - k) b) = firstn k (skipn (pos - k) b) ++ [x]).
      { assert (E3 : nth_error (skipn (pos - k) b) k = Some x) by (rewrite <- (firstn_skipn (pos - k) b) in Ex; rewrite nth_error_app2, firstn_length_le in Ex by (rewrite ?firstn_length_le; lia); replace (pos - (pos - k)) with k in Ex by lia; exact Ex).
        revert E3. generalize (skipn (pos - k) b). clear. induction k as [|k IH]; intros [|y b] E; try discriminate; cbn in *; [congruence|rewrite <- IH by exact E; reflexivity]. }
      rewrite E2. intro K. apply in_app_or in K. destruct K as [K|[K|[]]]; [contradiction|congruence].
    + destruct Kl as [Kl|Kl]; [left; lia|right; exact Kl].
Qed.

(* ---------- ropes ---------- *)
Notation wf := (wfr (line_ends c)).
Lemma wf_llen : forall r b, wf r b -> rp_llen r = loc_of b.
Proof.
  induction r as [o v n ll|o l IHl r IHr n ll|o v n ll]; intros b H; [| |destruct H].
  - destruct H as ((_ & Hs) & _ & _ & ->). rewrite Hs. apply llen_loc.
  - destruct H as (_ & _ & -> & x & y & -> & Hl & Hr). cbn [rp_llen]. rewrite (IHl _ Hl), (IHr _ Hr), loc_app. reflexivity.
Qed.
Lemma wf_line_col : forall r b pos, wf r b -> pos <= List.length b -> rp_line_col_at r pos = Some (loc_of (firstn pos b)).
Proof.
  induction r as [o v n ll|o l IHl r IHr n ll|o v n ll]; intros b pos H L; [| |destruct H].
  - destruct H as ((_ & Hs) & -> & _). cbn [rp_line_col_at]. rewrite Hs, line_col_spec by exact L. reflexivity.
  - destruct H as (_ & _ & _ & x & y & -> & Hl & Hr). cbn [rp_line_col_at]. rewrite (wfr_len _ _ _ Hl). rewrite app_length in L. rewrite firstn_app. destruct (Nat.ltb_spec pos (List.length x)) as [G|G].
    + replace (pos - List.length x) with 0 by lia. cbn [firstn]. rewrite app_nil_r. apply IHl; [exact Hl|lia].
    + rewrite (IHr y) by (assumption || lia). cbn [obind]. rewrite (firstn_all2 x) by lia. rewrite loc_app, (wf_llen _ _ Hl). reflexivity.
Qed.
Lemma wf_offset : forall r b pos, wf r b -> pos <= List.length b -> rp_offset_at r (loc_of (firstn pos b)) = Some (Z.of_nat pos).
Proof.
  induction r as [o v n ll|o l IHl r IHr n ll|o v n ll]; intros b pos H L; [| |destruct H].
  - destruct H as ((_ & Hs) & -> & _). cbn [rp_offset_at]. rewrite Hs, offset_spec by exact L. reflexivity.
  - destruct H as (_ & _ & _ & x & y & -> & Hl & Hr). cbn [rp_offset_at]. rewrite (wf_llen _ _ Hl), (wfr_len _ _ _ Hl).
    pose proof (lcmp_spec (x ++ y) pos (List.length x) L ltac:(rewrite app_length; lia)) as M. rewrite (firstn_app (List.length x)), firstn_all, Nat.sub_diag in M. cbn [firstn] in M. rewrite app_nil_r in M. rewrite M.
    rewrite app_length in L. rewrite firstn_app. destruct (Nat.compare_spec pos (List.length x)) as [G|G|G].
    + rewrite (firstn_all2 x) by lia. rewrite sub_add, (IHr y) by (assumption || lia). cbn [obind]. f_equal. lia.
    + replace (pos - List.length x) with 0 by lia. cbn [firstn]. rewrite app_nil_r. apply IHl; [exact Hl|lia].
    + rewrite (firstn_all2 x) by lia. rewrite sub_add, (IHr y) by (assumption || lia). cbn [obind]. f_equal. lia.
Qed.
Lemma wf_slice_lc : forall r b p q, wf r b -> p <= q <= List.length b ->
  rp_slice_lc r (loc_of (firstn p b)) (loc_of (firstn q b)) = Some (firstn (q - p) (skipn p b)).
Proof.
  induction r as [o v n ll|o l IHl r IHr n ll|o v n ll]; intros b p q H L; [| |destruct H].
  - destruct H as ((_ & Hs) & -> & _). cbn [rp_slice_lc]. rewrite lcmp_spec by lia. destruct (Nat.compare_spec p q) as [->|G|G]; [rewrite Nat.sub_diag; reflexivity| |lia].
    unfold sliceloc. rewrite Hs, !offset_spec by lia. rewrite (proj2 (Z.ltb_ge _ 0)), (proj2 (Z.ltb_ge _ 0)) by lia. cbn [orb]. rewrite !Nat2Z.id. apply slc_some. lia.
  - destruct H as (_ & _ & _ & x & y & -> & Hl & Hr). cbn [rp_slice_lc]. rewrite lcmp_spec by lia. destruct (Nat.compare_spec p q) as [->|G|G]; [rewrite Nat.sub_diag; reflexivity| |lia].
    cbv zeta. rewrite (wf_llen _ _ Hl), (wf_llen _ _ Hr). rewrite app_length in L.
    assert (A : forall k, k <= List.length x + List.length y -> minloc (loc_of (firstn k (x ++ y))) (loc_of x) = loc_of (firstn (Nat.min k (List.length x)) x)).
    { intros k Hk. pose proof (minloc_spec (x ++ y) k (List.length x) ltac:(rewrite app_length; lia) ltac:(rewrite app_length; lia)) as M.
      rewrite (firstn_app (List.length x)), firstn_all, Nat.sub_diag in M. cbn [firstn] in M. rewrite app_nil_r in M. rewrite M. f_equal.
      rewrite firstn_app. replace (Nat.min k (List.length x) - List.length x) with 0 by lia. cbn [firstn]. apply app_nil_r. }
    assert (B : forall k, k <= List.length x + List.length y -> maxloc lzero (minloc (sublocs (loc_of (firstn k (x ++ y))) (loc_of x)) (loc_of y)) = loc_of (firstn (Nat.min (k - List.length x) (List.length y)) y)).
    { intros k Hk. rewrite firstn_app. destruct (Nat.le_gt_cases (List.length x) k) as [K|K].
      - rewrite (firstn_all2 x) by lia. rewrite sub_add. pose proof (minloc_spec y (k - List.length x) (List.length y) ltac:(lia) ltac:(lia)) as M. rewrite firstn_all in M. rewrite M. apply maxzero.
      - replace (k - List.length x) with 0 by lia. cbn [firstn Nat.min]. rewrite app_nil_r.
        destruct (firstn_more x k (List.length x) ltac:(lia)) as (m & Hm & Em). rewrite firstn_all in Em. rewrite Em at 2. rewrite (sub_neg (firstn k x) m y Hm). reflexivity. }
    rewrite (A p), (A q), (B p), (B q) by lia. rewrite !eqb_spec by lia.
    pose proof (slice_wf (line_ends c) (RNode o l r (List.length (x ++ y)) (addlocs (rp_llen l) (rp_llen r))) (x ++ y) p q) as S.
    assert (Q : firstn (q - p) (skipn p (x ++ y)) = firstn (Nat.min q (List.length x) - Nat.min p (List.length x)) (skipn (Nat.min p (List.length x)) x) ++
      firstn (Nat.min (q - List.length x) (List.length y) - Nat.min (p - List.length x) (List.length y)) (skipn (Nat.min (p - List.length x) (List.length y)) y)).
    { clear - L. rewrite skipn_app, firstn_app, skipn_length. f_equal.
      - destruct (Nat.le_gt_cases p (List.length x)) as [K|K].
        + rewrite (Nat.min_l p) by lia. destruct (Nat.le_gt_cases q (List.length x)) as [J|J]; [rewrite Nat.min_l by lia; reflexivity|].
          rewrite !firstn_all2; [reflexivity| |]; rewrite skipn_length; lia.
        + rewrite !skipn_all2 by lia. rewrite !firstn_nil. reflexivity.
      - rewrite (Nat.min_l (p - _)) by lia. f_equal. lia. }
    rewrite Q. clear S. destruct (Nat.eqb_spec (Nat.min p (List.length x)) (Nat.min q (List.length x))) as [E1|E1]; cbn [negb];
      destruct (Nat.eqb_spec (Nat.min (p - List.length x) (List.length y)) (Nat.min (q - List.length x) (List.length y))) as [E2|E2]; cbn [negb].
    + rewrite E1, E2, !Nat.sub_diag. reflexivity.
    + rewrite E1, Nat.sub_diag. apply IHr; [exact Hr|lia].
    + rewrite E2, Nat.sub_diag. cbn [firstn]. rewrite app_nil_r. apply IHl; [exact Hl|lia].
    + rewrite (IHl x), (IHr y) by (assumption || lia). reflexivity.
Qed.
Lemma wf_slice_none : forall r b p q, wf r b -> q <= p <= List.length b -> rp_slice_lc r (loc_of (firstn p b)) (loc_of (firstn q b)) = Some [].
Proof.
  intros r b p q _ L. pose proof (lcmp_spec b p q ltac:(lia) ltac:(lia)) as M. destruct r; cbn [rp_slice_lc]; rewrite M; destruct (Nat.compare_spec p q); reflexivity || lia.
Qed.
End Lines.

(* ---------- bytes.Count, for separators of any length ---------- *)
Lemma prefixb_iff : forall p b, prefixb p b = true <-> exists v, b = p ++ v.
Proof.
  induction p as [|x p IH]; intros b; [split; [intros _; exists b; reflexivity|reflexivity]|].
  destruct b as [|y b]; cbn [prefixb]; [split; [discriminate|intros [v E]; discriminate]|].
  rewrite Bool.andb_true_iff, IH. split.
  - intros [E [v ->]]. apply byte_eqb_eq in E. subst. exists v. reflexivity.
  - intros [v E]. cbn in E. injection E as -> ->. split; [apply byte_eqb_refl|exists v; reflexivity].
Qed.
Lemma bindex_no : forall sep b, bindex b sep = None -> ~ within sep b.
Proof.
  intros sep b. induction b as [|x b IH]; cbn [bindex]; destruct (prefixb sep _) eqn:E; try discriminate; intros H [u [v K]].
  - destruct u; [|discriminate]. assert (prefixb sep [] = true) by (apply prefixb_iff; exists v; exact K). congruence.
  - destruct (bindex b sep); [discriminate|]. destruct u as [|y u].
    + assert (prefixb sep (x :: b) = true) by (apply prefixb_iff; exists v; exact K). congruence.
    + cbn in K. injection K as _ K. apply IH; [reflexivity|]. exists u, v. exact K.
Qed.
Lemma removelast_short : forall (l : list byte), l <> [] -> S (List.length (removelast l)) = List.length l.
Proof. intros l H. rewrite (app_removelast_last x00 H) at 2. rewrite app_length. cbn. lia. Qed.
Lemma bindex_yes : forall sep b i, sep <> [] -> bindex b sep = Some i ->
  exists p v, b = p ++ sep ++ v /\ List.length p = i /\ ~ within sep (p ++ removelast sep).
Proof.
  intros sep b i N. revert i. pose proof (removelast_short sep N) as R.
  induction b as [|x b IH]; cbn [bindex]; intros i; destruct (prefixb sep _) eqn:E.
  1, 3: intro H; injection H as <-; apply prefixb_iff in E; destruct E as [v E]; exists [], v; (split; [exact E|]); (split; [reflexivity|]);
    intros [u [w K]]; cbn in K; apply (f_equal (@List.length byte)) in K; rewrite !app_length in K; lia.
  - discriminate.
  - destruct (bindex b sep) as [j|]; [|discriminate]. cbn. intro H. injection H as <-.
    destruct (IH j eq_refl) as [p [v [-> [L M]]]]. exists (x :: p), v. split; [reflexivity|]. split; [cbn; congruence|].
    intros [u [w K]]. destruct u as [|y u].
    + assert (prefixb sep (x :: p ++ sep ++ v) = true); [|congruence]. apply prefixb_iff.
      exists (w ++ [last sep x00] ++ v).
      transitivity (((x :: p) ++ removelast sep) ++ [last sep x00] ++ v).
      * rewrite <- !app_assoc. cbn [app]. do 2 f_equal. rewrite (app_removelast_last x00 N) at 1. rewrite <- app_assoc. reflexivity.
      * rewrite K. cbn [app]. rewrite <- app_assoc. reflexivity.
    + cbn in K. injection K as _ K. apply M. exists u, w. exact K.
Qed.
Lemma count_cut : forall sep, sep <> [] -> forall b, exists parts, cut_at sep parts b /\ List.length parts = S (bcount b sep).
Proof.
  intros sep N. unfold bcount. enough (G : forall fuel b, List.length b < fuel -> exists parts, cut_at sep parts b /\ List.length parts = S (bcount_f fuel b sep)) by (intro b; apply G; lia).
  induction fuel as [|fuel IH]; intros b L; [lia|]. cbn [bcount_f]. destruct (bindex b sep) as [i|] eqn:E.
  - destruct (bindex_yes sep b i N E) as [p [v [-> [Lp M]]]].
    assert (S_ : skipn (i + List.length sep) (p ++ sep ++ v) = v) by (rewrite <- Lp, <- app_length, app_assoc, skipn_app, skipn_all, Nat.sub_diag; reflexivity).
    rewrite S_. destruct (IH v) as [parts [C Lc]].
    { rewrite !app_length in L. destruct sep; [congruence|]. cbn [List.length] in L. lia. }
    exists (p :: parts). split; [|cbn; congruence]. destruct parts as [|q r]; [discriminate|]. cbn [cut_at]. exists v. split; [reflexivity|]. split; [exact M|exact C].
  - exists [b]. split; [|reflexivity]. split; [reflexivity|]. apply bindex_no. exact E.
Qed.
Lemma llen_cut : forall sep b, sep <> [] -> exists parts, cut_at sep parts b /\ (l_line (llen b sep) + 1)%Z = Z.of_nat (List.length parts).
Proof.
  intros sep b N. destruct (count_cut sep N b) as [parts [C L]]. exists parts. split; [exact C|]. rewrite L. unfold llen.
  destruct (bcount b sep) as [|n]; cbn [Nat.eqb l_line]; lia.
Qed.
