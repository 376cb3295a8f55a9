(** Which arrays the leaves of a rope may write, and the operations on ropes. *)
From Coq Require Import ZArith Lia Permutation.
From Verif Require Import Base Model_Rope Model_RopeHeap Spec_Rope Proof_Rope Proof_RopeHeap.
Local Open Scope nat_scope.

Definition arrs (l : list bslice) : list nat := map bs_arr l.
(** the array of a slice with spare capacity is not in [U] and not used by the other slices *)
Fixpoint own (U : nat -> Prop) (l : list bslice) : Prop :=
  match l with
  | [] => True
  | s :: l => (open s -> ~ U (bs_arr s) /\ ~ In (bs_arr s) (arrs l)) /\ own (fun a => U a \/ a = bs_arr s) l
  end.
Definition and_arrs (U : nat -> Prop) (l : list bslice) (a : nat) : Prop := U a \/ In a (arrs l).

Lemma own_sub : forall l (U V : nat -> Prop), (forall a, V a -> U a) -> own U l -> own V l.
Proof.
  induction l as [|s l IH]; intros U V S H; [exact H|]. destruct H as [A B]. split.
  - intros O. destruct (A O). auto.
  - eapply IH; [|exact B]. cbn. intuition auto.
Qed.
Lemma own_app : forall l1 l2 U, own U (l1 ++ l2) <-> own (and_arrs U l2) l1 /\ own (and_arrs U l1) l2.
Proof.
  unfold and_arrs. induction l1 as [|s l1 IH]; intros l2 U; cbn [own app arrs map].
  - split; [intros H; split; [exact Logic.I|]|intros [_ H]]; (eapply own_sub; [|exact H]); cbn; intuition auto.
  - rewrite IH. split.
    + intros [A [B C]]. split; [split|].
      * intros O. destruct (A O) as [N M]. unfold arrs in M. rewrite map_app, in_app_iff in M. tauto.
      * eapply own_sub; [|exact B]. cbn. intuition auto.
      * eapply own_sub; [|exact C]. cbn. intuition auto.
    + intros [[A B] C]. split; [|split].
      * intros O. destruct (A O) as [N M]. unfold arrs. rewrite map_app, in_app_iff. tauto.
      * eapply own_sub; [|exact B]. cbn. intuition auto.
      * eapply own_sub; [|exact C]. cbn. intuition auto.
Qed.
Lemma own_swap : forall a b U, own U (a ++ b) -> own U (b ++ a).
Proof. intros a b U H. apply own_app. apply own_app in H. tauto. Qed.
Lemma own_perm : forall l l', Permutation l l' -> forall U, own U l -> own U l'.
Proof.
  intros l l' P. induction P; intros U H; auto.
  - destruct H as [A B]. split; [|auto]. intros O. destruct (A O) as [N M]. split; [exact N|]. intros I. apply M.
    unfold arrs in *. eapply Permutation_in; [|exact I]. apply Permutation_map. now apply Permutation_sym.
  - destruct H as (A & B & C). cbn [arrs map In] in *. split; [|split].
    + intros O. destruct (B O) as [N M]. split; [tauto|]. intros [E|I]; [|tauto]. apply N. auto.
    + intros O. destruct (A O) as [N M]. split; [|tauto]. intros [u|E]; [tauto|]. apply M. auto.
    + eapply own_sub; [|exact C]. cbn. tauto.
Qed.
(** closed slices are never written *)
Lemma own_closed : forall l U, Forall (fun s => ~ open s) l -> own U l.
Proof. induction l; intros U F; cbn; [exact Logic.I|]. inversion F; subst. split; [tauto|auto]. Qed.

(** [from n l l']: some slices dropped, and closed slices of new arrays added *)
Inductive from (n : nat) : list bslice -> list bslice -> Prop :=
| from_nil : from n [] []
| from_keep : forall s l l', from n l l' -> from n (s :: l) (s :: l')
| from_drop : forall s l l', from n l l' -> from n (s :: l) l'
| from_new : forall s l l', ~ open s -> n <= bs_arr s -> from n l l' -> from n l (s :: l').
#[local] Hint Constructors from : core.
Lemma from_refl : forall n l, from n l l.
Proof. induction l; auto. Qed.
Lemma from_app : forall n a a' b b', from n a a' -> from n b b' -> from n (a ++ b) (a' ++ b').
Proof. induction 1; intros; cbn; auto. Qed.
Lemma from_none : forall n l, from n l [].
Proof. induction l; auto. Qed.
Lemma from_trans : forall n b c, from n b c -> forall a, from n a b -> from n a c.
Proof.
  induction 1; intros a F.
  - exact F.
  - remember (s :: l) as sl. revert s l l' H IHfrom Heqsl. induction F; intros t m m' HH IH E; try discriminate.
    + injection E as -> ->. auto.
    + apply from_drop. eapply IHF; eauto.
    + injection E as -> ->. apply from_new; auto.
  - apply IHfrom. remember (s :: l) as sl. revert s l H IHfrom Heqsl. induction F; intros t m HH IH E; try discriminate.
    + injection E as -> ->. auto.
    + apply from_drop. eapply IHF; eauto.
    + injection E as -> ->. auto.
  - auto.
Qed.
Lemma from_le : forall n m l l', m <= n -> from n l l' -> from m l l'.
Proof. induction 2; auto. apply from_new; auto. lia. Qed.
Lemma from_in : forall n l l', from n l l' -> forall s, In s l' -> In s l \/ n <= bs_arr s /\ ~ open s.
Proof. induction 1; cbn; intros x I; auto; try (destruct I as [<-|I]; auto); destruct (IHfrom _ I); auto. Qed.
Lemma from_closed : forall n l l', from n l l' -> Forall (fun s => ~ open s) l -> Forall (fun s => ~ open s) l'.
Proof. induction 1; intros F; auto; inversion F; subst; auto. Qed.
Lemma from_own : forall n l l', from n l l' -> forall U, Forall (fun s => bs_arr s < n) l -> own U l -> own (fun a => U a \/ n <= a) l'.
Proof.
  induction 1; intros U F O; cbn [own] in *.
  - exact Logic.I.
  - inversion F; subst. destruct O as [A B]. split.
    + intros OP. destruct (A OP) as [N M]. split; [intros [?|?]; [tauto|lia]|]. unfold arrs. intros I. apply in_map_iff in I. destruct I as (x & E & I).
      destruct (from_in _ _ _ H _ I) as [I'|[L _]]; [|lia]. apply M. unfold arrs. rewrite <- E. now apply in_map.
    + eapply own_sub; [|apply IHfrom; [assumption|exact B]]. cbn. tauto.
  - inversion F; subst. destruct O as [A B]. eapply own_sub; [|apply IHfrom; [assumption|exact B]]. cbn. tauto.
  - split; [tauto|]. eapply own_sub; [|apply IHfrom; [assumption|exact O]]. cbn. intros a [[?|?]| ->]; auto.
Qed.

(** ** ropes *)
Fixpoint leaves (r : hrope) : list bslice := match r with HLeaf _ s _ _ => [s] | HNode _ l r _ _ => leaves l ++ leaves r end.
Fixpoint rep (h : bheap) (hr : hrope) (r : rope) : Prop :=
  match hr, r with
  | HLeaf o s n l, RLeaf o' v n' l' => o = o' /\ valid h s /\ bread h s = v /\ n = bs_len s /\ n = n' /\ l = l'
  | HNode o a b n l, RNode o' a' b' n' l' => o = o' /\ rep h a a' /\ rep h b b' /\ n = n' /\ l = l'
  | _, _ => False
  end.
Lemma rep_opts : forall h hr r, rep h hr r -> h_opts hr = rp_opts r.
Proof. destruct hr, r; cbn; intuition congruence. Qed.
Lemma rep_len : forall h hr r, rep h hr r -> h_len hr = rp_len r.
Proof. destruct hr, r; cbn; intuition congruence. Qed.
Lemma rep_llen : forall h hr r, rep h hr r -> h_llen hr = rp_llen r.
Proof. destruct hr, r; cbn; intuition congruence. Qed.
Lemma rep_valid : forall h hr r, rep h hr r -> Forall (valid h) (leaves hr).
Proof. induction hr; intros [] H; cbn in *; try tauto; [constructor; [tauto|constructor]|]. apply Forall_app. split; [eapply IHhr1|eapply IHhr2]; apply H. Qed.
Lemma rep_old : forall h hr r, rep h hr r -> Forall (fun s => bs_arr s < List.length h) (leaves hr).
Proof. intros h hr r H. eapply Forall_impl; [|eapply rep_valid, H]. intros s V. apply V. Qed.
Lemma rep_keeps : forall h h' hr r, rep h hr r -> keeps (fun a => In a (arrs (leaves hr))) h h' -> rep h' hr r.
Proof.
  induction hr; intros [] H K; cbn in *; try tauto.
  - destruct H as (-> & V & R & -> & <- & ->). assert (K' : keeps (eq (bs_arr value)) h h') by (eapply keeps_sub; [|exact K]; cbn; auto).
    repeat split; try eapply keeps_valid; eauto. rewrite keeps_read with (h := h); auto.
  - destruct H as (-> & A & B & -> & ->). unfold arrs in K. rewrite map_app in K. repeat split.
    + apply IHhr1; [exact A|]. eapply keeps_sub; [|exact K]. intros. apply in_or_app. auto.
    + apply IHhr2; [exact B|]. eapply keeps_sub; [|exact K]. intros. apply in_or_app. auto.
Qed.
Lemma rep_grows : forall h h' hr r, rep h hr r -> grows h h' -> rep h' hr r.
Proof. intros. eapply rep_keeps; eauto using grows_keeps. Qed.
Lemma rep_leaf : forall h o s, valid h s -> rep h (h_leaf h o s) (new_leaf o (bread h s)).
Proof. intros. cbn. rewrite read_len by assumption. auto 10. Qed.

Ltac bind_some H x E := match type of H with obind ?a _ = Some _ => destruct a as [x|] eqn:E; [cbn [obind] in H|discriminate H] end.

Lemma value_rep : forall hr r h v, rep h hr r -> rp_value r = Some v -> exists h' s, h_value h hr = Some (h', s) /\ grows h h' /\ valid h' s /\ bread h' s = v /\
  ((exists o n l, hr = HLeaf o s n l) \/ List.length h <= bs_arr s /\ ~ open s).
Proof.
  induction hr as [o s n l|o l IHl r0 IHr n ll]; intros [o' v' n' l'|o' a b n' l'|] h v H E; cbn in H; try tauto; cbn in E.
  - destruct H as (-> & V & R & -> & <- & ->). injection E as <-. exists h, s. repeat split; auto using grows_refl; try apply V. left. eauto.
  - destruct H as (-> & A & B & -> & ->). bind_some E x Ex. bind_some E y Ey. injection E as <-.
    destruct (IHl _ h x A Ex) as (h1 & s1 & E1 & G1 & V1 & R1 & _).
    destruct (IHr _ h1 y (rep_grows _ _ _ _ B G1) Ey) as (h2 & s2 & E2 & G2 & V2 & R2 & _).
    cbn [h_value]. rewrite E1. cbn [obind]. rewrite E2. cbn [obind]. rewrite (concat_spec h2 s1 s2 (grows_valid _ _ _ V1 G2) V2).
    eexists _, _. split; [reflexivity|]. pose proof (read_len _ _ (grows_valid _ _ _ V1 G2)) as L1. pose proof (read_len _ _ V2) as L2.
    split; [eauto using grows_trans, grows_one|]. split; [|split].
    + unfold valid. cbn [bs_arr bs_off bs_len bs_cap]. rewrite barr_new, app_length, app_length. cbn. lia.
    + rewrite (grows_read _ _ _ V1 G2), R1, R2 in *.
      pose proof (read_mid (h2 ++ [x ++ y]) (List.length h2) [] (x ++ y) [] (bs_len s1 + bs_len s2) (bs_len s1 + bs_len s2)) as R. cbn [List.length app] in R. apply R; [rewrite barr_new, app_nil_r; reflexivity|]. rewrite app_length. lia.
    + right. cbn. pose proof (grows_len _ _ G1). pose proof (grows_len _ _ G2). unfold open. cbn. lia.
Qed.

Definition grown (h : bheap) (res : option (bheap * hrope)) (l : list bslice) (r : rope) : Prop :=
  exists h' hr, res = Some (h', hr) /\ grows h h' /\ rep h' hr r /\ from (List.length h) l (leaves hr).

Lemma adjust_node_rep : forall o a b n l h r r', rep h (HNode o a b n l) r -> adjust_node r = Some r' -> grown h (h_adjust_node h (HNode o a b n l)) (leaves a ++ leaves b) r'.
Proof.
  intros o a b n l h r r' H E. unfold adjust_node in E. unfold h_adjust_node. rewrite (rep_len _ _ _ H), (rep_opts _ _ _ H). destruct (rp_len r <? o_joinlen (rp_opts r)).
  - bind_some E v Ev. injection E as <-. destruct (value_rep _ _ h v H Ev) as (h' & s & E1 & G & V & R & C). rewrite E1. cbn [obind].
    eexists _, _. split; [reflexivity|]. split; [exact G|]. split.
    + pose proof (rep_leaf h' (rp_opts r) s V) as L. rewrite R in L. exact L.
    + destruct C as [(? & ? & ? & ?)|[C1 C2]]; [discriminate|]. cbn. apply from_new; auto. apply from_none.
  - injection E as <-. eexists _, _. split; [reflexivity|]. split; [apply grows_refl|]. split; [exact H|]. cbn. apply from_refl.
Qed.
Lemma join_rep : forall h a b r s t, rep h a r -> rep h b s -> rp_join r s = Some t -> grown h (h_join h a b) (leaves a ++ leaves b) t.
Proof.
  intros h a b r s t A B E. unfold rp_join in E. unfold h_join. eapply adjust_node_rep; [|exact E]. cbn.
  rewrite (rep_opts _ _ _ A), (rep_len _ _ _ A), (rep_len _ _ _ B), (rep_llen _ _ _ A), (rep_llen _ _ _ B). auto.
Qed.

Definition all_leaves (l : list hrope) : list bslice := concat (map leaves l).
Definition grown_list (h : bheap) (res : option (bheap * list hrope)) (l : list bslice) (rs : list rope) : Prop :=
  exists h' hrs, res = Some (h', hrs) /\ grows h h' /\ Forall2 (rep h') hrs rs /\ from (List.length h) l (all_leaves hrs).
Lemma F2_length : forall A B (R : A -> B -> Prop) l m, Forall2 R l m -> List.length l = List.length m.
Proof. induction 1; cbn; congruence. Qed.
Lemma reps_grows : forall h h' hrs rs, Forall2 (rep h) hrs rs -> grows h h' -> Forall2 (rep h') hrs rs.
Proof. intros h h' hrs rs F G. induction F; constructor; auto. eapply rep_grows; eauto. Qed.

Lemma join_last_rep : forall rs hrs h rs', Forall2 (rep h) hrs rs -> join_last rs = Some rs' -> grown_list h (h_join_last h hrs) (all_leaves hrs) rs'.
Proof.
  induction rs as [|r rs IH]; intros hrs h rs' F E; [discriminate|]. inversion F as [|a ? l ? A F2]; subst; clear F.
  assert (D : (exists s b, rs = [s] /\ l = [b]) \/ (join_last (r :: rs) = obind (join_last rs) (fun ns => Some (r :: ns)) /\
     h_join_last h (a :: l) = obind (h_join_last h l) (fun x => let (h, ns) := x : bheap * list hrope in Some (h, a :: ns)))).
  { destruct F2 as [|b s l rs B F2]; [right; split; reflexivity|]. destruct F2 as [|? ? ? ? ? ?]; [left; eauto|right; split; reflexivity]. }
  destruct D as [(s & b & -> & ->)|[D1 D2]].
  - inversion F2 as [|? ? ? ? B _]; subst. cbn in E. bind_some E n En. injection E as <-.
    destruct (join_rep _ _ _ _ _ _ A B En) as (h' & hr & E1 & G & R & M). cbn. rewrite E1. cbn. eexists _, _. split; [reflexivity|]. split; [exact G|]. split; [auto|].
    unfold all_leaves. cbn. rewrite !app_nil_r. exact M.
  - rewrite D1 in E. bind_some E ns En. injection E as <-. rewrite D2.
    destruct (IH _ _ _ F2 eq_refl) as (h' & hrs & E1 & G & R & M). rewrite E1. cbn. eexists _, _. split; [reflexivity|]. split; [exact G|].
    split; [constructor; [eapply rep_grows; eauto|exact R]|]. unfold all_leaves. cbn. apply from_app; [apply from_refl|exact M].
Qed.

Lemma pairs_ind : forall A (P : list A -> Prop), P [] -> (forall a, P [a]) -> (forall a b l, P l -> P (a :: b :: l)) -> forall l, P l.
Proof. intros A P P0 P1 P2. fix go 1. intros [|a [|b l]]; [exact P0|apply P1|apply P2, go]. Qed.
Lemma join_pairs_rep : forall rs hrs h rs', Forall2 (rep h) hrs rs -> join_pairs rs = Some rs' -> grown_list h (h_join_pairs h hrs) (all_leaves hrs) rs'.
Proof.
  induction rs as [|r|r s rs IH] using pairs_ind; intros hrs h rs' F E; [|discriminate|].
  - inversion F; subst. injection E as <-. eexists _, _. split; [reflexivity|]. split; [apply grows_refl|]. split; [constructor|]. apply from_refl.
  - inversion F as [|a ? l0 ? A F2]; subst; clear F. inversion F2 as [|b ? l ? B F]; subst; clear F2. cbn in E. bind_some E n En. bind_some E ns Ens. injection E as <-.
    destruct (join_rep _ _ _ _ _ _ A B En) as (h' & hr & E1 & G & R & M).
    destruct (IH _ _ _ (reps_grows _ _ _ _ F G) eq_refl) as (h2 & hrs & E2 & G2 & R2 & M2).
    cbn. rewrite E1. cbn. rewrite E2. cbn. eexists _, _. split; [reflexivity|]. split; [eauto using grows_trans|].
    split; [constructor; [eapply rep_grows; eauto|exact R2]|]. unfold all_leaves. cbn. rewrite app_assoc. apply from_app; [exact M|].
    eapply from_le; [|exact M2]. now apply grows_len.
Qed.
Lemma build_rep : forall fuel rs hrs h r, Forall2 (rep h) hrs rs -> build_tree fuel rs = Some r -> grown h (h_build_tree fuel h hrs) (all_leaves hrs) r.
Proof.
  induction fuel; intros rs hrs h r F E.
  - destruct rs as [|x [|y rs]]; try discriminate. injection E as <-. inversion F as [|a ? ? ? A F2]; subst. inversion F2; subst. cbn.
    eexists _, _. split; [reflexivity|]. split; [apply grows_refl|]. split; [exact A|]. unfold all_leaves. cbn. rewrite app_nil_r. apply from_refl.
  - assert (D : (exists x a, rs = [x] /\ hrs = [a]) \/
      (build_tree (S fuel) rs = obind (if Nat.odd (List.length rs) then join_last rs else Some rs) (fun nodes => obind (join_pairs nodes) (fun ns => build_tree fuel ns)) /\
       h_build_tree (S fuel) h hrs = obind (if Nat.odd (List.length hrs) then h_join_last h hrs else Some (h, hrs)) (fun x => let (h, nodes) := x : bheap * list hrope in
         obind (h_join_pairs h nodes) (fun x => let (h, ns) := x : bheap * list hrope in h_build_tree fuel h ns)))).
    { destruct F as [|a x l rs A F2]; [right; split; reflexivity|]. destruct F2; [left; eauto|right; split; reflexivity]. }
    destruct D as [(x & a & -> & ->)|[D1 D2]].
    + injection E as <-. inversion F as [|? ? ? ? A F2]; subst. cbn.
      eexists _, _. split; [reflexivity|]. split; [apply grows_refl|]. split; [exact A|]. unfold all_leaves. cbn. rewrite app_nil_r. apply from_refl.
    + rewrite D1 in E. rewrite D2, (F2_length _ _ _ _ _ F). clear D1 D2. bind_some E nodes En. bind_some E ns Ens.
      assert (X : grown_list h (if Nat.odd (List.length rs) then h_join_last h hrs else Some (h, hrs)) (all_leaves hrs) nodes).
      { destruct (Nat.odd (List.length rs)); [now apply join_last_rep with (rs := rs)|]. injection En as <-. eexists _, _. split; [reflexivity|]. split; [apply grows_refl|]. split; [exact F|apply from_refl]. }
      destruct X as (h1 & hrs1 & E1 & G1 & R1 & M1). rewrite E1. cbn [obind].
      destruct (join_pairs_rep _ _ _ _ R1 Ens) as (h2 & hrs2 & E2 & G2 & R2 & M2). rewrite E2. cbn [obind].
      destruct (IHfuel _ _ _ _ R2 E) as (h3 & hr & E3 & G3 & R3 & M3). rewrite E3.
      eexists _, _. split; [reflexivity|]. split; [eauto using grows_trans|]. split; [exact R3|].
      pose proof (grows_len _ _ G1). pose proof (grows_len _ _ G2).
      eapply from_trans; [eapply from_le; [|exact M3]; lia|]. eapply from_trans; [eapply from_le; [|exact M2]; lia|]. exact M1.
Qed.

Lemma chunks_rep : forall n sz s j h, valid h s -> j + n * sz <= bs_len s -> exists cs, h_chunks n sz s j = Some cs /\
  map (bread h) cs = chunks n sz (skipn j (bread h s)) /\ Forall (valid h) cs /\ Forall (fun c => bs_arr c = bs_arr s /\ ~ open c) cs.
Proof.
  induction n; intros sz s j h V L; cbn [h_chunks chunks].
  - exists []. auto.
  - destruct (cut3_read h s j (j + sz) V ltac:(cbn in L; lia)) as (x & E & Vx & Rx & Ax & Cx).
    destruct (IHn sz s (j + sz) h V ltac:(cbn in L; lia)) as (cs & Ec & M & Fv & Fa).
    rewrite E. cbn [obind]. rewrite Ec. cbn [obind]. eexists. split; [reflexivity|]. cbn [map]. split; [|split].
    + rewrite Rx, M. replace (j + sz - j) with sz by lia. rewrite skipn_add. reflexivity.
    + auto.
    + constructor; [split; [exact Ax|unfold open; lia]|exact Fa].
Qed.

(** New: only closed slices of the array it was given, or of new arrays *)
Lemma new_rep : forall h o s r, valid h s -> rp_new o (bread h s) = Some r -> exists h' hr, h_new h o s = Some (h', hr) /\ grows h h' /\ rep h' hr r /\
  Forall (fun x => ~ open x /\ (bs_arr x = bs_arr s \/ List.length h <= bs_arr x)) (leaves hr).
Proof.
  intros h o s r V E. unfold rp_new in E. unfold h_new. destruct (o_split o) as [|k] eqn:K; [discriminate|]. set (sz := S k) in *.
  rewrite (read_len h s V) in E. cbv zeta in *. set (nc := bs_len s / sz) in *.
  assert (LE : nc * sz <= bs_len s). { subst nc. rewrite Nat.mul_comm. apply Nat.mul_div_le. subst sz. discriminate. }
  destruct (chunks_rep nc sz s 0 h V ltac:(lia)) as (cs & Ec & Mc & Fv & Fa). rewrite Ec. cbn [obind].
  destruct (cut3_read h s (nc * sz) (bs_len s) V ltac:(lia)) as (c & E2 & Vc & Rc & Ac & Cc). rewrite E2. cbn [obind].
  cbn [skipn] in Mc. rewrite firstn_all2 in Rc by (rewrite skipn_length, (read_len h s V); lia).
  assert (F : Forall2 (rep h) (map (h_leaf h o) (cs ++ [c])) (map (new_leaf o) (chunks nc sz (bread h s) ++ [skipn (nc * sz) (bread h s)]))).
  { rewrite <- Mc, <- Rc. change [bread h c] with (map (bread h) [c]). rewrite <- map_app, map_map.
    assert (Fall : Forall (valid h) (cs ++ [c])) by (apply Forall_app; auto). clear -Fall. induction Fall; cbn [map]; constructor; auto. now apply rep_leaf. }
  assert (LL : List.length (map (h_leaf h o) (cs ++ [c])) = List.length (map (new_leaf o) (chunks nc sz (bread h s) ++ [skipn (nc * sz) (bread h s)]))) by (eapply F2_length, F).
  rewrite LL. destruct (build_rep _ _ _ _ _ F E) as (h' & hr & E1 & G & R & M). rewrite E1. eexists _, _. split; [reflexivity|]. split; [exact G|]. split; [exact R|].
  assert (AL : all_leaves (map (h_leaf h o) (cs ++ [c])) = cs ++ [c]) by (unfold all_leaves; rewrite map_map; cbn; clear; induction (cs ++ [c]); cbn; congruence).
  rewrite AL in M. apply Forall_forall. intros x I. destruct (from_in _ _ _ M _ I) as [I2|[]]; [|auto].
  apply in_app_or in I2. destruct I2 as [I2|[<-|[]]].
  - rewrite Forall_forall in Fa. destruct (Fa _ I2). auto.
  - split; [unfold open; lia|auto].
Qed.

(** what an operation does that may write arrays outside of [U] *)
Definition changed (U : nat -> Prop) (h : bheap) (l l' : list bslice) : Prop :=
  own U l' /\ forall s, In s l' -> In (bs_arr s) (arrs l) \/ List.length h <= bs_arr s.
Definition done (U : nat -> Prop) (h : bheap) (res : option (bheap * hrope)) (l : list bslice) (r : rope) : Prop :=
  exists h' hr, res = Some (h', hr) /\ keeps U h h' /\ rep h' hr r /\ changed U h l (leaves hr).
Definition below (U : nat -> Prop) (h : bheap) : Prop := forall a, U a -> a < List.length h.

Lemma changed_from : forall U h (h1 : bheap) l l1 l2, List.length h <= List.length h1 -> changed U h l l1 -> Forall (fun s => bs_arr s < List.length h1) l1 -> from (List.length h1) l1 l2 -> changed U h l l2.
Proof.
  intros U h h1 l l1 l2 L [O I] F M. split.
  - eapply own_sub; [|eapply from_own; eauto]. cbn. auto.
  - intros s S. destruct (from_in _ _ _ M _ S) as [X|[X _]]; [auto|right; lia].
Qed.
Lemma own_ext : forall (h : bheap) r (V W : nat -> Prop), own V r -> Forall (fun s => bs_arr s < List.length h) r -> (forall a, W a -> V a \/ List.length h <= a) -> own W r.
Proof.
  induction r as [|s r IH]; intros V W O F S; [exact Logic.I|]. destruct O as [A B]. inversion F; subst. split.
  - intros OP. destruct (A OP) as [N M]. split; [|exact M]. intros w. destruct (S _ w); [tauto|lia].
  - eapply IH; [exact B|assumption|]. intros a [w| ->]; auto. destruct (S _ w); auto.
Qed.
(** an operation on a part *)
Lemma changed_part : forall U h l r l', own U (l ++ r) -> Forall (fun s => bs_arr s < List.length h) r -> changed (and_arrs U r) h l l' -> changed U h (l ++ r) (l' ++ r).
Proof.
  intros U h l r l' O F [O' I]. apply own_app in O. destruct O as [Ol Or]. split.
  - apply own_app. split; [exact O'|].
    eapply own_ext; [exact Or|exact F|]. unfold and_arrs. intros a [u|u]; auto. unfold arrs in u. apply in_map_iff in u. destruct u as (s & <- & S). destruct (I _ S); auto.
  - intros s S. unfold arrs. rewrite map_app. apply in_app_or in S. destruct S as [S|S]; [destruct (I _ S); auto; left; apply in_or_app; auto|].
    left. apply in_or_app. right. now apply in_map.
Qed.
Lemma changed_swap : forall U h l l' a b, changed U h (l ++ l') (a ++ b) -> changed U h (l' ++ l) (b ++ a).
Proof.
  intros U h l l' a b [O I]. split; [now apply own_swap|]. intros s S. unfold arrs. rewrite map_app.
  assert (X : In s (a ++ b)) by (apply in_app_or in S; apply in_or_app; tauto). destruct (I _ X) as [Y|Y]; [left|auto]. unfold arrs in Y. rewrite map_app in Y.
  apply in_app_or in Y. apply in_or_app. tauto.
Qed.
Lemma changed_trans : forall U h (h1 : bheap) a b c, List.length h <= List.length h1 -> changed U h a b -> changed U h1 b c -> changed U h a c.
Proof.
  intros U h h1 a b c L [_ I] [O J]. split; [exact O|]. intros s S. destruct (J _ S) as [X|X]; [|right; lia]. unfold arrs in X. apply in_map_iff in X. destruct X as (t & E & T).
  rewrite <- E. now apply I.
Qed.
Lemma changed_refl : forall U h l, own U l -> changed U h l l.
Proof. intros. split; [assumption|]. intros s S. left. now apply in_map. Qed.

Lemma adjust_rep : forall U h hr r r', rep h hr r -> own U (leaves hr) -> rp_adjust r = Some r' ->
  exists h' hr', h_adjust h hr = Some (h', hr') /\ grows h h' /\ rep h' hr' r' /\ changed U h (leaves hr) (leaves hr').
Proof.
  intros U h hr r r' H O E. destruct hr as [o s n l|o a b n l], r as [o' v n' l'|o' a' b' n' l'|]; cbn in H; try tauto.
  - destruct H as (<- & V & R & En & <- & <-). cbn [rp_adjust h_adjust] in *. destruct (o_split o <? n) eqn:C.
    + apply Nat.ltb_lt in C. assert (Lv : List.length v = n) by (rewrite <- R, En; now apply read_len).
      assert (D : n / 2 <= n) by (apply Nat.div_le_upper_bound; lia).
      rewrite slc_pre in E by lia. cbn [obind] in E. rewrite slc_post in E by lia. cbn [obind] in E. bind_some E x Ex. bind_some E y Ey. injection E as <-.
      pose proof V as (VA & VB & VC).
      rewrite (cut_some s 0) by lia. cbn [obind]. rewrite (cut_some s (n / 2)) by lia. cbn [obind].
      destruct (cut_read h s 0 (n / 2) _ V ltac:(lia) (cut_some s 0 (n / 2) ltac:(lia))) as (V1 & R1 & A1 & _).
      destruct (cut_read h s (n / 2) (bs_len s) _ V ltac:(lia) (cut_some s (n / 2) (bs_len s) ltac:(lia))) as (V2 & R2 & A2 & _).
      set (s1 := BS (bs_arr s) (bs_off s + 0) (n / 2 - 0) (bs_cap s - 0)) in *. set (s2 := BS (bs_arr s) (bs_off s + n / 2) (bs_len s - n / 2) (bs_cap s - n / 2)) in *.
      cbn [skipn] in R1. rewrite Nat.sub_0_r, R in R1. rewrite R, firstn_all2 in R2 by (rewrite skipn_length; lia). rewrite <- R1 in Ex. rewrite <- R2 in Ey.
      destruct (new_rep h o s1 x V1 Ex) as (h1 & hr1 & E1 & G1 & P1 & F1). rewrite E1. cbn [obind].
      rewrite <- (grows_read h h1 s2 V2 G1) in Ey.
      destruct (new_rep h1 o s2 y (grows_valid _ _ _ V2 G1) Ey) as (h2 & hr2 & E2 & G2 & P2 & F2). rewrite E2. cbn [obind].
      eexists _, _. split; [reflexivity|]. split; [eauto using grows_trans|]. pose proof (rep_grows _ _ _ _ P1 G2) as P1'. split.
      * cbn. rewrite (rep_len _ _ _ P1'), (rep_len _ _ _ P2), (rep_llen _ _ _ P1'), (rep_llen _ _ _ P2). auto.
      * cbn [leaves]. assert (FF : Forall (fun t => ~ open t /\ (bs_arr t = bs_arr s \/ List.length h <= bs_arr t)) (leaves hr1 ++ leaves hr2)).
        { apply Forall_app. split; [eapply Forall_impl; [|exact F1]|eapply Forall_impl; [|exact F2]]; cbn beta; intros t [T1 T2]; (split; [exact T1|]).
          - rewrite A1 in T2. exact T2.
          - rewrite A2 in T2. pose proof (grows_len _ _ G1). destruct T2; [auto|right; lia]. }
        split; [apply own_closed; eapply Forall_impl; [|exact FF]; cbn beta; tauto|]. intros t T. rewrite Forall_forall in FF. destruct (FF _ T) as [_ [X|X]]; [left; cbn; auto|auto].
    + injection E as <-. eexists _, _. split; [reflexivity|]. split; [apply grows_refl|]. split; [cbn; auto 10|]. now apply changed_refl.
  - assert (H' : rep h (HNode o a b n l) (RNode o' a' b' n' l')) by exact H. cbn [rp_adjust h_adjust] in *.
    destruct (adjust_node_rep _ _ _ _ _ _ _ _ H' E) as (h1 & hr1 & E1 & G & R & M). exists h1, hr1. split; [exact E1|]. split; [exact G|]. split; [exact R|].
    eapply changed_from; [apply Nat.le_refl| |eapply (rep_old h _ _ H')|exact M]. now apply changed_refl.
Qed.
