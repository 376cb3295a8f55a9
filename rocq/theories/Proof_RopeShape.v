(** Proofs about the shape of ropes (C54). *)
From Coq Require Import ZArith Lia.
From Verif Require Import Base Model_Rope Spec_Rope Proof_Rope Spec_RopeShape.
Local Open Scope nat_scope.

Lemma obind_some : forall A B (x : option A) (f : A -> option B) y, obind x f = Some y -> exists a, x = Some a /\ f a = Some y.
Proof. intros A B [a|] f y H; [eauto|discriminate]. Qed.
Ltac ob H a E := apply obind_some in H; destruct H as (a & E & H).

Lemma slc_length : forall s a b x, slc s a b = Some x -> List.length x = b - a /\ a <= b <= List.length s.
Proof.
  intros s a b x H. unfold slc in H. destruct (Nat.leb_spec a b); [|discriminate]. destruct (Nat.leb_spec b (List.length s)); [|discriminate].
  injection H as <-. rewrite firstn_length, skipn_length. lia.
Qed.

Section Fits.
Variable k : nat.

Fixpoint lf (r : rope) : Prop :=
  match r with
  | RLeaf o v n _ => limits k o /\ n = List.length v /\ List.length v <= k
  | RNode o x y n _ => limits k o /\ n = rp_len x + rp_len y /\ lf x /\ lf y
  | RNil _ _ _ _ => False
  end.
Lemma lf_opts : forall r, lf r -> limits k (rp_opts r).
Proof. intros [| |] H; cbn in *; tauto. Qed.
Lemma lf_value : forall r v, lf r -> rp_value r = Some v -> List.length v = rp_len r.
Proof.
  induction r as [o w n l|o x IHx y IHy n l|o w n l]; intros v H E; [| |destruct H].
  - injection E as <-. destruct H as (_ & -> & _). reflexivity.
  - cbn [rp_value] in E. ob E a Ea. ob E b Eb. injection E as <-. destruct H as (_ & -> & Hx & Hy). rewrite app_length, (IHx a), (IHy b) by assumption. reflexivity.
Qed.
Lemma lf_leaf : forall o b, limits k o -> List.length b <= k -> lf (new_leaf o b).
Proof. intros. cbn. auto. Qed.
Lemma adjust_node_lf : forall r r', lf r -> adjust_node r = Some r' -> lf r'.
Proof.
  intros r r' H E. unfold adjust_node in E. destruct (Nat.ltb_spec (rp_len r) (o_joinlen (rp_opts r))) as [G|G]; [|injection E as <-; exact H].
  ob E v Ev. injection E as <-. pose proof (lf_opts r H) as O. apply (lf_leaf (rp_opts r) v O). rewrite (lf_value r v H Ev). unfold limits in O. lia.
Qed.
Lemma join_lf : forall x y r, lf x -> lf y -> rp_join x y = Some r -> lf r.
Proof. intros x y r Hx Hy E. eapply adjust_node_lf; [|exact E]. cbn. pose proof (lf_opts x Hx). auto. Qed.
Lemma join_last_lf : forall ns ms, Forall lf ns -> join_last ns = Some ms -> Forall lf ms.
Proof.
  induction ns as [|a [|b [|c ns]] IH]; intros ms H E; [discriminate| | |].
  - cbn in E. discriminate.
  - cbn [join_last] in E. ob E n En. injection E as <-. inversion H as [|? ? Ha H']; subst. inversion H' as [|? ? Hb _]; subst. constructor; [|constructor]. exact (join_lf a b n Ha Hb En).
  - inversion H as [|? ? Ha H']; subst. change (join_last (a :: b :: c :: ns)) with (obind (join_last (b :: c :: ns)) (fun l => Some (a :: l))) in E. ob E m Em. injection E as <-. constructor; [exact Ha|]. apply IH; assumption.
Qed.
Lemma join_pairs_lf : forall len ns ms, List.length ns <= len -> Forall lf ns -> join_pairs ns = Some ms -> Forall lf ms.
Proof.
  induction len as [|len IH]; intros [|a [|b ns]] ms L H E; try discriminate; try (injection E as <-; constructor); try (cbn in L; lia).
  cbn [join_pairs] in E. ob E n En. ob E m Em. injection E as <-. inversion H as [|? ? Ha H']; subst. inversion H' as [|? ? Hb H'']; subst.
  constructor; [exact (join_lf a b n Ha Hb En)|]. apply (IH ns); [cbn in L; lia|exact H''|exact Em].
Qed.
Lemma build_tree_lf : forall fuel ns r, Forall lf ns -> build_tree fuel ns = Some r -> lf r.
Proof.
  induction fuel as [|fuel IH]; intros ns r H E.
  - destruct ns as [|a [|b ns]]; cbn in E; try discriminate. injection E as <-. inversion H; assumption.
  - destruct ns as [|a [|b ns]]; [cbn in E; eapply IH; [|exact E]; constructor|cbn in E; injection E as <-; inversion H; assumption|].
    cbn [build_tree] in E. ob E ms Em. ob E ls El. eapply IH; [|exact E]. eapply join_pairs_lf; [apply Nat.le_refl| |exact El].
    destruct (Nat.odd _); [eapply join_last_lf; [exact H|exact Em]|injection Em as <-; exact H].
Qed.
Lemma chunks_fit : forall n sz b, Forall (fun c => List.length c <= sz) (chunks n sz b).
Proof. induction n as [|n IH]; intros sz b; [constructor|]. constructor; [apply firstn_le_length|apply IH]. Qed.
Lemma new_lf : forall o b r, limits k o -> rp_new o b = Some r -> lf r.
Proof.
  intros o b r H E. unfold rp_new in E. pose proof H as [[H1 H2] H3]. destruct (o_split o) as [|s] eqn:Es; [discriminate|]. cbv zeta in E.
  eapply build_tree_lf; [|exact E]. apply Forall_map. apply Forall_app. split.
  - eapply Forall_impl; [|apply chunks_fit]. intros c Hc. cbn beta in Hc. apply lf_leaf; [exact H|lia].
  - constructor; [|constructor]. apply lf_leaf; [exact H|]. rewrite skipn_length. pose proof (Nat.div_mod (List.length b) (S s) ltac:(lia)). pose proof (Nat.mod_upper_bound (List.length b) (S s) ltac:(lia)). lia.
Qed.
Lemma adjust_lf : forall r r', match r with RLeaf o v n _ => limits k o /\ n = List.length v | _ => lf r end -> rp_adjust r = Some r' -> lf r'.
Proof.
  intros [o v n l|o x y n l|o v n l] r' H E; [|eapply adjust_node_lf; [exact H|exact E]|destruct H]. destruct H as [O ->].
  unfold rp_adjust in E. destruct (Nat.ltb_spec (o_split o) (List.length v)) as [G|G].
  - cbv zeta in E. ob E a Ea. ob E b Eb. ob E x Ex. ob E y Ey. injection E as <-. pose proof (new_lf o a x O Ex). pose proof (new_lf o b y O Ey). cbn. auto.
  - injection E as <-. cbn. unfold limits in O. split; [exact O|]. split; [reflexivity|]. lia.
Qed.
Lemma insert_lf : forall r pos v r', lf r -> rp_insert r pos v = Some r' -> lf r'.
Proof.
  induction r as [o w n l|o x IHx y IHy n l|o w n l]; intros pos v r' H E; [| |destruct H]; cbn [rp_insert] in E.
  - ob E a Ea. ob E b Eb. eapply adjust_lf; [|exact E]. cbn. split; [apply H|reflexivity].
  - ob E q Fq. destruct q as [x' y']. destruct H as (O & _ & Hx & Hy). assert (K : lf x' /\ lf y').
    { destruct (_ <? _); ob Fq z Ez; injection Fq as <- <-; split; try assumption; [eapply IHx|eapply IHy]; eassumption. }
    eapply adjust_lf; [|exact E]. cbn. tauto.
Qed.
Lemma remove_lf : forall r st en r', lf r -> rp_remove r st en = Some r' -> lf r'.
Proof.
  induction r as [o w n l|o x IHx y IHy n l|o w n l]; intros st en r' H E; [| |destruct H]; cbn [rp_remove] in E.
  - ob E a Ea. ob E b Eb. destruct (_ <=? _); [|discriminate]. eapply adjust_lf; [|exact E]. cbn. split; [apply H|reflexivity].
  - cbv zeta in E. ob E x' Ex. ob E y' Ey. destruct H as (O & _ & Hx & Hy).
    assert (Kx : lf x') by (destruct (_ <? rp_len x); [eapply IHx; eassumption|injection Ex as <-; exact Hx]).
    assert (Ky : lf y') by (destruct (0 <? _); [eapply IHy; eassumption|injection Ey as <-; exact Hy]).
    eapply adjust_lf; [|exact E]. cbn. tauto.
Qed.
Lemma split_lf : forall r i a b, lf r -> rp_split_at r i = Some (a, b) -> lf a /\ lf b.
Proof.
  induction r as [o w n l|o x IHx y IHy n l|o w n l]; intros i a b H E; [| |destruct H]; cbn [rp_split_at] in E.
  - ob E u Eu. ob E v Ev. ob E c Ec. ob E d Ed. injection E as <- <-. split; eapply new_lf; try eassumption; apply H.
  - cbv zeta in E. destruct H as (O & _ & Hx & Hy). destruct (_ =? _); [injection E as <- <-; auto|]. destruct (_ <? _); ob E q Fq; destruct q as [c d]; ob E e Ee; injection E as <- <-.
    + destruct (IHx _ _ _ Hx Fq). split; [assumption|]. eapply join_lf; [| |exact Ee]; assumption.
    + destruct (IHy _ _ _ Hy Fq). split; [|assumption]. eapply join_lf; [| |exact Ee]; assumption.
Qed.
Lemma join_all_lf : forall more s r, Forall lf more -> (forall a, s = Some a -> lf a) ->
  fold_left (fun s n => obind s (fun s => rp_join s n)) more s = Some r -> lf r.
Proof.
  induction more as [|n more IH]; intros s r F H E; [apply H; exact E|]. inversion F; subst. cbn [fold_left] in E. eapply IH; [eassumption| |exact E].
  intros a Ea. ob Ea c Ec. eapply join_lf; [apply H; exact Ec| |exact Ea]. assumption.
Qed.
Theorem made_lf : forall r b, made (limits k) r b -> lf r.
Proof.
  apply (made_ind' (limits k) (fun r _ => lf r)).
  - intros o b r O E. eapply new_lf; eassumption.
  - intros r b pos v r' H _ E. eapply insert_lf; eassumption.
  - intros r b st en r' H _ E. eapply remove_lf; eassumption.
  - intros r b i l x H _ E. eapply (split_lf r i l x); eassumption.
  - intros r b i x l H _ E. eapply (split_lf r i x l); eassumption.
  - intros a b more s t us r Ha Hb Hm E. unfold rp_join_all in E. eapply join_all_lf; [| |exact E].
    + clear - Hm. induction Hm; constructor; assumption.
    + intros c Ec. eapply join_lf; [| |exact Ec]; assumption.
Qed.
Lemma lf_leaves : forall r, lf r -> Forall (fun v => List.length v <= k) (leaves r).
Proof.
  induction r as [o v n l|o x IHx y IHy n l|o v n l]; intro H; [| |destruct H]; cbn [leaves lf] in *.
  - constructor; [tauto|constructor].
  - apply Forall_app. tauto.
Qed.
End Fits.

(** ** inner nodes *)
Lemma wfr_inner : forall P r b, wfr P r b -> Forall (fun n => o_joinlen (rp_opts n) <= S (o_split (rp_opts n)) -> o_joinlen (rp_opts n) <= rp_len n) (inner r).
Proof.
  intro P. induction r as [o v n l|o x IHx y IHy n l|o v n l]; intros b H; cbn [inner]; [constructor| |constructor].
  destruct H as ((_ & J) & _ & _ & u & v & _ & Hx & Hy). constructor; [exact J|]. apply Forall_app. split; [eapply IHx|eapply IHy]; eassumption.
Qed.
Lemma wfr_leaves : forall P r b, wfr P r b -> concat (leaves r) = b.
Proof.
  intro P. induction r as [o v n l|o x IHx y IHy n l|o v n l]; intros b H; [| |destruct H]; cbn [leaves].
  - destruct H as (_ & -> & _). cbn. apply app_nil_r.
  - destruct H as (_ & _ & _ & u & v & -> & Hx & Hy). rewrite concat_app, (IHx u Hx), (IHy v Hy). reflexivity.
Qed.
Lemma each_nodes : forall P A (fn : A -> rope -> A) r b a, wfr P r b -> rp_each fn r a = Some (fold_left fn (nodes r) a).
Proof.
  intros P A fn. induction r as [o v n l|o x IHx y IHy n l|o v n l]; intros b a H; [reflexivity| |destruct H].
  destruct H as (_ & _ & _ & u & v & -> & Hx & Hy). cbn [rp_each nodes fold_left]. rewrite (IHx u _ Hx). cbn [obind]. rewrite (IHy v _ Hy), fold_left_app. reflexivity.
Qed.

(** ** the depth of a new rope *)
Lemma adjust_node_depth : forall r r', adjust_node r = Some r' -> rdepth r' <= rdepth r.
Proof. intros r r' E. unfold adjust_node in E. destruct (_ <? _); [ob E v Ev|]; injection E as <-; cbn; lia. Qed.
Lemma join_depth : forall x y r d, rdepth x <= d -> rdepth y <= d -> rp_join x y = Some r -> rdepth r <= S d.
Proof. intros x y r d Hx Hy E. apply adjust_node_depth in E. cbn [rdepth] in E. lia. Qed.
Lemma join_last_depth : forall d ns ms, Forall (fun r => rdepth r <= d) ns -> join_last ns = Some ms -> Forall (fun r => rdepth r <= S d) ms /\ S (List.length ms) = List.length ns.
Proof.
  intro d. induction ns as [|a [|b [|c ns]] IH]; intros ms H E; [discriminate| | |].
  - cbn in E. discriminate.
  - cbn [join_last] in E. ob E n En. injection E as <-. inversion H as [|? ? Ha H']; subst. inversion H' as [|? ? Hb _]; subst. split; [|reflexivity]. constructor; [|constructor]. exact (join_depth a b n d Ha Hb En).
  - inversion H as [|? ? Ha H']; subst. change (join_last (a :: b :: c :: ns)) with (obind (join_last (b :: c :: ns)) (fun l => Some (a :: l))) in E. ob E m Em. injection E as <-.
    destruct (IH m H' Em) as [F L]. split; [constructor; [lia|exact F]|cbn [List.length] in *; lia].
Qed.
Lemma join_pairs_depth : forall d len ns ms, List.length ns <= len -> Forall (fun r => rdepth r <= d) ns -> join_pairs ns = Some ms ->
  Forall (fun r => rdepth r <= S d) ms /\ List.length ms + List.length ms = List.length ns.
Proof.
  intro d. induction len as [|len IH]; intros [|a [|b ns]] ms L H E; try discriminate; try (injection E as <-; split; [constructor|reflexivity]); try (cbn in L; lia).
  cbn [join_pairs] in E. ob E n En. ob E m Em. injection E as <-. inversion H as [|? ? Ha H']; subst. inversion H' as [|? ? Hb H'']; subst.
  destruct (IH ns m ltac:(cbn in L; lia) H'' Em) as [F G]. split; [constructor; [exact (join_depth a b n d Ha Hb En)|exact F]|cbn [List.length]; lia].
Qed.
Lemma build_tree_depth : forall fuel d ns r, Forall (fun r => rdepth r <= d) ns -> build_tree fuel ns = Some r -> 2 ^ rdepth r <= 2 ^ d * (List.length ns * List.length ns).
Proof.
  assert (One : forall d (a r : rope), Forall (fun r => rdepth r <= d) [a] -> Some a = Some r -> 2 ^ rdepth r <= 2 ^ d * (1 * 1)).
  { intros d a r H E. injection E as <-. inversion H; subst. rewrite Nat.mul_1_r. apply Nat.pow_le_mono_r; [lia|assumption]. }
  induction fuel as [|fuel IH]; intros d ns r H E.
  - destruct ns as [|a [|b ns]]; cbn in E; try discriminate. exact (One d a r H E).
  - destruct ns as [|a [|b ns]]; [exfalso; cbn in E; clear - E; induction fuel; cbn in E; [discriminate|auto]|exact (One d a r H E)|].
    set (N := a :: b :: ns) in *. cbn [build_tree] in E. unfold N in E. fold N in E. ob E ms Em. ob E ls El.
    assert (K : Forall (fun r => rdepth r <= S d) ms /\ List.length ms <= List.length N).
    { destruct (Nat.odd _); [destruct (join_last_depth d N ms H Em); split; [assumption|lia]|injection Em as <-; split; [|lia]]. eapply Forall_impl; [|exact H]. cbn beta. intros; lia. }
    destruct K as [F L]. destruct (join_pairs_depth (S d) _ ms ls (Nat.le_refl _) F El) as [F2 L2].
    specialize (IH _ ls r F2 E). cbn [Nat.pow] in IH. assert (List.length ls + List.length ls <= List.length N) by lia.
    eapply Nat.le_trans; [exact IH|]. set (p := 2 ^ d). set (u := List.length ls) in *. set (v := List.length N) in *. assert ((u + u) * (u + u) <= v * v) by (apply Nat.mul_le_mono; assumption). nia.
Qed.
Lemma chunks_length : forall n sz b, List.length (chunks n sz b) = n.
Proof. induction n as [|n IH]; intros sz b; [reflexivity|]. cbn [chunks List.length]. rewrite IH. reflexivity. Qed.
Theorem new_depth : forall o b r, rp_new o b = Some r -> 2 ^ rdepth r <= (List.length b / o_split o + 1) * (List.length b / o_split o + 1).
Proof.
  intros o b r E. unfold rp_new in E. destruct (o_split o) as [|s]; [discriminate|]. cbv zeta in E. apply (build_tree_depth _ 0) in E.
  - rewrite map_length, app_length, chunks_length in E. cbn [List.length] in E. change (2 ^ 0) with 1 in E. rewrite Nat.mul_1_l in E. exact E.
  - apply Forall_map, Forall_forall. intros c _. cbn. lia.
Qed.

(** ** typing at the end *)
Section Comb.
Variable o : opts.
Hypothesis Big : 3 <= o_split o.
Hypothesis Small : o_joinlen o <= S (o_split o).

Fixpoint comb (r : rope) : Prop :=
  match r with
  | RLeaf o' v n _ => o' = o /\ n = List.length v /\ n <= o_split o
  | RNode o' (RLeaf o1 v m _) y n _ => o' = o /\ o1 = o /\ m = List.length v /\ m <= o_split o /\ n = m + rp_len y /\ o_split o < n /\ comb y
  | _ => False
  end.
Lemma comb_depth : forall r, comb r -> rp_len r <= S (rdepth r) * o_split o.
Proof.
  induction r as [o' v n l|o' x _ y IHy n l|o' v n l]; intro H; [cbn in *; lia| |destruct H]. destruct x as [o1 v m l1| |]; cbn [comb] in H; [|destruct H..].
  destruct H as (_ & _ & _ & B & -> & _ & Hy). specialize (IHy Hy). cbn [rp_len rdepth]. rewrite Nat.max_0_l. lia.
Qed.
Lemma new_small : forall b, List.length b < o_split o -> rp_new o b = Some (new_leaf o b).
Proof.
  intros b L. unfold rp_new. destruct (o_split o) as [|s] eqn:E; [lia|]. cbv zeta. rewrite Nat.div_small by exact L. reflexivity.
Qed.
Lemma comb_type : forall c r, comb r -> exists r', rp_insert r (rp_len r) [c] = Some r' /\ comb r' /\ rp_len r' = S (rp_len r).
Proof.
  intro c. induction r as [o' v n l|o' x _ y IHy n l|o' v n l]; intro H; [| |destruct H].
  - destruct H as (-> & -> & L). cbn [rp_insert rp_len]. rewrite slc_pre, slc_post, firstn_all, skipn_all by lia. cbn [obind]. rewrite app_nil_r.
    assert (A : List.length (v ++ [c]) = S (List.length v)) by (rewrite app_length; cbn; lia).
    unfold rp_adjust, new_leaf. destruct (Nat.ltb_spec (o_split o) (List.length (v ++ [c]))) as [G|G].
    + cbv zeta. set (w := v ++ [c]) in *. assert (E : List.length w = S (o_split o)) by lia.
      assert (D : 2 * (List.length w / 2) <= List.length w /\ 2 <= List.length w / 2 /\ List.length w <= 2 * (List.length w / 2) + 1).
      { pose proof (Nat.div_mod (List.length w) 2 ltac:(lia)). pose proof (Nat.mod_upper_bound (List.length w) 2 ltac:(lia)). lia. }
      rewrite slc_pre, slc_post by lia. cbn [obind]. rewrite new_small by (rewrite firstn_length; lia). cbn [obind]. rewrite new_small by (rewrite skipn_length; lia). cbn [obind].
      eexists. split; [reflexivity|]. unfold new_leaf. cbn [comb rp_len]. rewrite firstn_length, skipn_length. repeat split; lia.
    + eexists. split; [reflexivity|]. cbn. repeat split; lia.
  - destruct x as [o1 v m l1| |]; cbn [comb] in H; [|destruct H..]. destruct H as (-> & -> & -> & B & -> & G & Hy). destruct (IHy Hy) as (y' & E & Hy' & L').
    cbn [rp_insert rp_len]. rewrite (proj2 (Nat.ltb_ge _ _)) by lia. replace (List.length v + rp_len y - List.length v) with (rp_len y) by lia. rewrite E. cbn [obind].
    unfold rp_adjust, adjust_node. cbn [rp_len rp_opts]. rewrite (proj2 (Nat.ltb_ge _ _)) by lia. eexists. split; [reflexivity|]. cbn [comb rp_len]. repeat split; auto; lia.
Qed.
Lemma typed_comb : forall b, exists r, typed o b = Some r /\ comb r /\ rp_len r = List.length b /\ made (eq o) r b.
Proof.
  unfold typed. rewrite (new_small []) by (cbn; lia).
  assert (G : forall b b0 r, comb r -> rp_len r = List.length b0 -> made (eq o) r b0 ->
    exists r', fold_left (fun r c => obind r (fun r => rp_insert r (rp_len r) [c])) b (Some r) = Some r' /\ comb r' /\ rp_len r' = List.length (b0 ++ b) /\ made (eq o) r' (b0 ++ b)).
  { induction b as [|c b IH]; intros b0 r H L M; [exists r; rewrite app_nil_r; auto|]. destruct (comb_type c r H) as (r1 & E & H1 & L1). cbn [fold_left obind]. rewrite E.
    destruct (IH (b0 ++ [c]) r1 H1) as (r' & A).
    - rewrite app_length. cbn. lia.
    - replace (b0 ++ [c]) with (firstn (rp_len r) b0 ++ [c] ++ skipn (rp_len r) b0) by (rewrite L, firstn_all, skipn_all, app_nil_r; reflexivity). eapply made_insert; [exact M|lia|exact E].
    - rewrite <- app_assoc in A. exists r'. exact A. }
  intro b. apply (G b [] (new_leaf o [])); [cbn; repeat split; lia|reflexivity|]. eapply made_new; [reflexivity|]. apply new_small. cbn. lia.
Qed.
(** removing the beginning *)
Lemma comb_remove : forall r e, comb r -> e + o_joinlen o <= rp_len r -> exists r', rp_remove r 0 e = Some r' /\ rdepth r' = rdepth r /\ rp_len r' = rp_len r - e.
Proof.
  induction r as [o' v n l|o' x _ y IHy n l|o' v n l]; intros e H L; [| |destruct H].
  - destruct H as (-> & -> & B). cbn [rp_remove rp_len] in *. rewrite slc_pre, slc_post by lia. cbn [obind firstn app Nat.leb].
    assert (A : List.length (skipn e v) = List.length v - e) by apply skipn_length. unfold rp_adjust, new_leaf. rewrite (proj2 (Nat.ltb_ge _ _)) by lia. eexists. split; [reflexivity|]. cbn. auto.
  - destruct x as [o1 v m l1| |]; cbn [comb] in H; [|destruct H..]. destruct H as (-> & -> & -> & B & -> & G & Hy). cbn [rp_len] in L.
    remember (RLeaf o v (List.length v) l1) as X eqn:EX. cbn [rp_remove rp_len]. replace (rp_len X) with (List.length v) by (subst X; reflexivity). cbv zeta. rewrite !Nat.min_0_l. change (0 - List.length v) with 0. rewrite ?Nat.min_0_l.
    set (e1 := Nat.min e (List.length v)). set (e2 := Nat.min (e - List.length v) (rp_len y)).
    assert (A : exists x, (if 0 <? List.length v then rp_remove X 0 e1 else Some X) = Some x /\ rdepth x = 0 /\ rp_len x = List.length v - e1).
    { subst X. destruct (Nat.ltb_spec 0 (List.length v)) as [Z|Z]; [|eexists; split; [reflexivity|]; cbn; lia]. cbn [rp_remove]. rewrite slc_pre, slc_post by lia. cbn [obind firstn app Nat.leb].
      assert (A : List.length (skipn e1 v) = List.length v - e1) by apply skipn_length. unfold rp_adjust, new_leaf. rewrite (proj2 (Nat.ltb_ge _ _)) by lia. eexists. split; [reflexivity|]. cbn. auto. }
    destruct A as (x & -> & Dx & Lx). cbn [obind].
    assert (A : exists z, (if 0 <? e2 then rp_remove y 0 e2 else Some y) = Some z /\ rdepth z = rdepth y /\ rp_len z = rp_len y - e2).
    { destruct (Nat.ltb_spec 0 e2) as [Z|Z]; [apply IHy; [exact Hy|lia]|]. exists y. split; [reflexivity|]. split; [reflexivity|]. lia. }
    destruct A as (z & -> & Dz & Lz). cbn [obind]. unfold rp_adjust, adjust_node. cbn [rp_len rp_opts]. rewrite (proj2 (Nat.ltb_ge _ _)) by lia.
    eexists. split; [reflexivity|]. cbn [rdepth rp_len]. rewrite Dx, Dz. split; [subst X; reflexivity|]. lia.
Qed.
End Comb.
Theorem typed_deep : forall o b, 3 <= o_split o -> o_joinlen o <= S (o_split o) ->
  exists r, typed o b = Some r /\ made (eq o) r b /\ List.length b <= S (rdepth r) * o_split o.
Proof.
  intros o b B S. destruct (typed_comb o B S b) as (r & E & C & L & M). exists r. split; [exact E|]. split; [exact M|]. rewrite <- L. apply (comb_depth o B S). exact C.
Qed.
Theorem typed_waste : forall o b k, 3 <= o_split o -> o_joinlen o <= S (o_split o) -> o_joinlen o <= k <= List.length b ->
  exists r r', typed o b = Some r /\ rp_remove r 0 (List.length b - k) = Some r' /\ made (eq o) r' (skipn (List.length b - k) b) /\
    rp_len r' = k /\ List.length b <= S (rdepth r') * o_split o.
Proof.
  intros o b k B S K. destruct (typed_comb o B S b) as (r & E & C & L & M). destruct (comb_remove o B S r (List.length b - k) C ltac:(lia)) as (r' & E' & D & L').
  exists r, r'. split; [exact E|]. split; [exact E'|]. split.
  - apply (made_remove (eq o) r b 0 (List.length b - k) r' M); [lia|exact E'].
  - split; [lia|]. rewrite D, <- L. apply (comb_depth o B S). exact C.
Qed.
