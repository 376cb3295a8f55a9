(** Slices of captures: when appends to slices that share arrays do what appends to lists do. *)
From Coq Require Import ZArith Permutation.
From Verif Require Import Base Model_Charset Model_Isa Model_Capture Model_Input Model_Code Model_Interval Model_Table Model_VM Model_Heap Spec_Peg Proof_Capture.
Local Open Scope nat_scope.

(** ** Arrays *)
Lemma set_nth_len : forall A n (x : A) l, List.length (set_nth n x l) = List.length l.
Proof. induction n; intros x l; destruct l; cbn [set_nth List.length]; try rewrite IHn; reflexivity. Qed.
Lemma nth_set_same : forall A n (x d : A) l, n < List.length l -> nth n (set_nth n x l) d = x.
Proof. induction n; intros x d l H; destruct l; cbn [set_nth nth List.length] in *; try lia; [reflexivity|apply IHn; lia]. Qed.
Lemma nth_set_other : forall A n m (x d : A) l, n <> m -> nth m (set_nth n x l) d = nth m l d.
Proof. induction n; intros m x d l H; destruct l, m; cbn [set_nth nth]; try lia; try reflexivity. apply IHn. lia. Qed.

(** the frozen arrays are those that are never written again *)
Definition frozen := nat -> bool.
Definition more (F F' : frozen) : Prop := forall a, F a = true -> F' a = true.
Definition agree (F : frozen) (h h' : heap) : Prop := forall a, F a = true -> arr h' a = arr h a.
Definition freeze (F : frozen) (s : slice) : frozen := fun a => F a || (negb (sl_len s =? 0) && (a =? sl_arr s)).
Lemma more_freeze : forall F s, more F (freeze F s).
Proof. intros F s a H. unfold freeze. rewrite H. reflexivity. Qed.

(** ** A slice stands for a list of captures *)
Inductive crep (F : frozen) (h : heap) : hcap -> capture -> Prop :=
| crep_i : forall d id st ln s cs, sl_len s = 0 \/ F (sl_arr s) = true -> sl_len s <= List.length (arr h (sl_arr s)) -> (d = true -> cs <> []) ->
    creps F h (cells h s) cs -> crep F h (HCap d id st ln s) (Capture d id st ln cs)
with creps (F : frozen) (h : heap) : list hcap -> list capture -> Prop :=
| creps_nil : creps F h [] []
| creps_cons : forall c v cs vs, crep F h c v -> creps F h cs vs -> creps F h (c :: cs) (v :: vs).
Scheme crep_mind := Minimality for crep Sort Prop with creps_mind := Minimality for creps Sort Prop.

Lemma creps_app : forall F h a b u v, creps F h a u -> creps F h b v -> creps F h (a ++ b) (u ++ v).
Proof. intros F h a b u v H. induction H; intros; cbn [app]; [assumption|]. constructor; auto. Qed.
Lemma creps_len : forall F h a u, creps F h a u -> List.length a = List.length u.
Proof. intros F h a u H. induction H; cbn [List.length]; congruence. Qed.
Lemma cells_agree : forall (F : frozen) h h' s, agree F h h' -> sl_len s = 0 \/ F (sl_arr s) = true -> cells h' s = cells h s.
Proof. intros F h h' s A [E|E]; unfold cells; [rewrite E; reflexivity|rewrite (A _ E); reflexivity]. Qed.
Lemma creps_more : forall F F' h h' a u, creps F h a u -> more F F' -> agree F h h' -> creps F' h' a u.
Proof.
  intros F F' h h' a u H M A. revert a u H.
  apply (creps_mind F h (fun c v => crep F' h' c v) (fun a u => creps F' h' a u)); try (constructor; assumption).
  intros d id st ln s cs E L D H IH. constructor.
  - destruct E; auto.
  - destruct E as [E|E]; [rewrite E; lia|]. rewrite (A _ E). exact L.
  - exact D.
  - rewrite (cells_agree F h h' s A E). exact IH.
Qed.
Lemma crep_more : forall F F' h h' c v, crep F h c v -> more F F' -> agree F h h' -> crep F' h' c v.
Proof.
  intros F F' h h' c v H M A. assert (X : creps F h [c] [v]) by (constructor; [exact H|constructor]).
  apply (creps_more F F' h h') in X; [|exact M|exact A]. inversion X; subst. assumption.
Qed.

(** no dummy is empty, so there are at least as many captures as children that a user sees *)
Lemma creps_flat : forall F h a u, creps F h a u -> List.length u <= List.length (flat u).
Proof.
  intros F h a u. apply (creps_mind F h (fun c v => 1 <= List.length (flat1 v)) (fun a u => List.length u <= List.length (flat u))).
  - intros d id st ln s cs _ _ D _ IH. rewrite flat1_eq. destruct d; [|cbn [List.length]; lia].
    specialize (D eq_refl). destruct cs as [|v vs]; [contradiction|]. cbn [List.length] in IH. lia.
  - cbn. lia.
  - intros c v cs vs _ H1 _ H2. cbn [flat List.length]. rewrite app_length. lia.
Qed.

(** what the user sees *)
Lemma all_some_mono : forall A B (f g : A -> option B) l k, (forall x y, f x = Some y -> g x = Some y) -> all_some (map f l) = Some k -> all_some (map g l) = Some k.
Proof.
  intros A B f g l. induction l as [|x l IH]; intros k H E; [exact E|]. cbn [map all_some] in *. destruct (f x) as [y|] eqn:Y; [|discriminate E].
  rewrite (H _ _ Y). destruct (all_some (map f l)) as [z|] eqn:Z; [|discriminate E]. rewrite (IH _ H eq_refl). exact E.
Qed.
Lemma view_mono : forall n h c v, view n h c = Some v -> forall m, n <= m -> view m h c = Some v.
Proof.
  induction n as [|n IH]; intros h c v H m L; [discriminate H|]. destruct m as [|m]; [lia|]. destruct c as [d id st ln s]. cbn [view] in *.
  destruct (all_some (map (view n h) (cells h s))) as [k|] eqn:E; [|discriminate H].
  rewrite (all_some_mono _ _ (view n h) (view m h) _ k); [exact H| |exact E]. intros x y X. apply IH with (m := m) in X; [exact X|lia].
Qed.
Lemma creps_view : forall F h a u, creps F h a u -> exists n, all_some (map (view n h) a) = Some u.
Proof.
  intros F h. apply (creps_mind F h (fun c v => exists n, view n h c = Some v) (fun a u => exists n, all_some (map (view n h) a) = Some u)).
  - intros d id st ln s cs _ _ _ _ [n IH]. exists (S n). cbn [view]. rewrite IH. reflexivity.
  - exists 0. reflexivity.
  - intros c v cs vs _ [n H1] _ [m H2]. exists (n + m). cbn [map all_some]. rewrite (view_mono _ _ _ _ H1) by lia.
    rewrite (all_some_mono _ _ (view m h) (view (n + m) h) cs vs); [reflexivity| |exact H2]. intros x y X. apply (view_mono _ _ _ _ X). lia.
Qed.

(** ** The slices of the stack *)
Definition swf (F : frozen) (h : heap) (s : slice) (cs : list capture) : Prop :=
  sl_len s <= List.length (arr h (sl_arr s)) /\ creps F h (cells h s) cs.
Definition full (h : heap) (s : slice) : Prop := sl_len s = List.length (arr h (sl_arr s)).
Definition live (F : frozen) (s : slice) : bool := negb (sl_len s =? 0) && negb (F (sl_arr s)).
(** no two slices that can be appended to in place have the same array *)
Definition inv (F : frozen) (h : heap) (L : list slice) : Prop :=
  (forall a, F a = true -> a < List.length h) /\
  Forall (fun s => sl_len s <= List.length (arr h (sl_arr s)) /\ (F (sl_arr s) = true -> sl_len s = 0 \/ full h s)) L /\
  NoDup (map sl_arr (filter (live F) L)).

Lemma swf_len : forall F h s cs, swf F h s cs -> List.length cs = sl_len s.
Proof. intros F h s cs [H1 H2]. apply creps_len in H2. unfold cells in H2. rewrite firstn_length in H2. lia. Qed.
Lemma swf_nil : forall F h a, swf F h (Slice a 0) [].
Proof. intros. split; [cbn; lia|]. unfold cells. cbn. constructor. Qed.
Lemma swf_zero : forall F h s cs, swf F h s cs -> sl_len s = 0 -> cs = [].
Proof. intros F h s cs H E. apply swf_len in H. destruct cs; [reflexivity|cbn in H; lia]. Qed.
Lemma swf_more : forall F F' h s cs, swf F h s cs -> more F F' -> swf F' h s cs.
Proof. intros F F' h s cs [H1 H2] M. split; [exact H1|]. eapply creps_more; [exact H2|exact M|intros a _; reflexivity]. Qed.
(** a slice whose array has not changed *)
Lemma swf_same : forall F h h' s cs, swf F h s cs -> agree F h h' -> sl_len s = 0 \/ arr h' (sl_arr s) = arr h (sl_arr s) -> swf F h' s cs.
Proof.
  intros F h h' s cs [H1 H2] A E. assert (C : cells h' s = cells h s) by (unfold cells; destruct E as [E|E]; rewrite E; reflexivity). split.
  - destruct E as [E|E]; [rewrite E; lia|rewrite E; exact H1].
  - rewrite C. eapply creps_more; [exact H2|intros a X; exact X|exact A].
Qed.

Lemma filter_perm : forall A (f : A -> bool) l l', Permutation l l' -> Permutation (filter f l) (filter f l').
Proof.
  intros A f l l' H. induction H; cbn [filter]; [constructor|destruct (f x); [constructor|]; assumption| |eapply perm_trans; eassumption].
  destruct (f x), (f y); try apply Permutation_refl. constructor.
Qed.
Lemma inv_perm : forall F h L L', inv F h L -> Permutation L L' -> inv F h L'.
Proof.
  intros F h L L' (B & A & N) P. split; [exact B|]. split.
  - rewrite Forall_forall in *. intros x X. apply A. eapply Permutation_in; [apply Permutation_sym; exact P|exact X].
  - eapply Permutation_NoDup; [|exact N]. apply Permutation_map. apply filter_perm. exact P.
Qed.
Lemma inv_tail : forall F h s L, inv F h (s :: L) -> inv F h L.
Proof.
  intros F h s L (B & A & N). split; [exact B|]. inversion A; subst. split; [assumption|]. cbn [filter] in N.
  destruct (live F s); [cbn [map] in N; inversion N; assumption|exact N].
Qed.
Lemma inv_head : forall F h s L, inv F h (s :: L) -> sl_len s <= List.length (arr h (sl_arr s)) /\ (F (sl_arr s) = true -> sl_len s = 0 \/ full h s).
Proof. intros F h s L (B & A & N). inversion A; subst. assumption. Qed.
Lemma inv_dead : forall F h s L, inv F h L -> sl_len s <= List.length (arr h (sl_arr s)) -> sl_len s = 0 \/ (F (sl_arr s) = true /\ full h s) -> inv F h (s :: L).
Proof.
  intros F h s L (B & A & N) H E. split; [exact B|]. split; [constructor; [|exact A]|].
  - split; [exact H|]. intro X. destruct E as [E|[_ E]]; auto.
  - cbn [filter]. assert (X : live F s = false) by (unfold live; destruct E as [E|[E _]]; rewrite E; [reflexivity|apply Bool.andb_false_r]). rewrite X. exact N.
Qed.
Lemma live_in : forall F h s L, inv F h L -> In s L -> live F s = true -> In (sl_arr s) (map sl_arr (filter (live F) L)).
Proof. intros F h s L _ I E. apply in_map. apply filter_In. auto. Qed.
(** a slice that can be appended to in place shares its array with no other *)
Lemma inv_other : forall F h s L x, inv F h (s :: L) -> live F s = true -> In x L -> sl_len x = 0 \/ sl_arr x <> sl_arr s.
Proof.
  intros F h s L x (B & A & N) E I. cbn [filter] in N. rewrite E in N. cbn [map] in N. inversion N; subst.
  destruct (Nat.eq_dec (sl_len x) 0) as [Z|Z]; [auto|]. right. intro X. apply H1. destruct (live F x) eqn:L1.
  - rewrite <- X. apply in_map. apply filter_In. auto.
  - unfold live in L1, E. rewrite X in L1. destruct (sl_len x =? 0) eqn:Q; [apply Nat.eqb_eq in Q; contradiction|]. cbn in L1.
    apply Bool.andb_true_iff in E. destruct E as [_ E]. rewrite E in L1. discriminate.
Qed.

(** ** Writing *)
Lemma arr_set : forall h a x b, arr (set_nth a x h) b = if (a =? b) && (a <? List.length h) then x else arr h b.
Proof.
  intros h a x b. unfold arr. destruct (Nat.eqb_spec a b) as [->|E]; cbn [andb].
  - destruct (Nat.ltb_spec b (List.length h)); [apply nth_set_same; assumption|]. rewrite !nth_overflow; [reflexivity|lia|rewrite set_nth_len; lia].
  - apply nth_set_other. exact E.
Qed.
Lemma arr_old : forall h x a, a < List.length h -> arr (h ++ [x]) a = arr h a.
Proof. intros h x a H. unfold arr. apply app_nth1. exact H. Qed.
Lemma arr_new : forall h x, arr (h ++ [x]) (List.length h) = x.
Proof. intros h x. unfold arr. rewrite app_nth2, Nat.sub_diag by lia. reflexivity. Qed.
Lemma arr_some : forall h s, 0 < sl_len s -> sl_len s <= List.length (arr h (sl_arr s)) -> sl_arr s < List.length h.
Proof. intros h s H1 H2. destruct (Nat.lt_ge_cases (sl_arr s) (List.length h)) as [|X]; [assumption|]. unfold arr in H2. rewrite nth_overflow in H2 by exact X. cbn in H2. lia. Qed.

Definition kept (h h' : heap) (x : slice) : Prop := sl_len x = 0 \/ arr h' (sl_arr x) = arr h (sl_arr x).
Lemma alloc_ok : forall F h L cs vs cap h' s', inv F h L -> creps F h cs vs -> List.length cs <= cap -> alloc h cs cap = (h', s') ->
  agree F h h' /\ inv F h' (s' :: L) /\ swf F h' s' vs /\ Forall (kept h h') L /\ sl_len s' = List.length cs /\ List.length (arr h' (sl_arr s')) = cap.
Proof.
  intros F h L cs vs cap h' s' (B & A & N) H C E. injection E as <- <-. cbn [sl_len sl_arr].
  set (x := cs ++ repeat no_cap (cap - List.length cs)). assert (Lx : List.length x = cap) by (unfold x; rewrite app_length, repeat_length; lia).
  assert (G : agree F h (h ++ [x])) by (intros a Ha; apply arr_old; auto).
  assert (K : Forall (kept h (h ++ [x])) L).
  { apply Forall_forall. intros y Y. rewrite Forall_forall in A. destruct (A _ Y) as [A1 _]. unfold kept. destruct (Nat.eq_dec (sl_len y) 0); [auto|]. right.
    apply arr_old. apply arr_some; [lia|exact A1]. }
  split; [exact G|]. split; [|split; [|split; [exact K|split; [reflexivity|rewrite arr_new; exact Lx]]]].
  - split; [intros a Ha; rewrite app_length; specialize (B _ Ha); lia|]. split.
    + constructor; [cbn [sl_len sl_arr]; rewrite arr_new, Lx; split; [exact C|]|].
      * intro Z. apply B in Z. lia.
      * rewrite Forall_forall in *. intros y Y. destruct (A _ Y) as [A1 A2]. destruct (K _ Y) as [K0|K0]; unfold full; [rewrite K0; split; [lia|auto]|].
        rewrite K0. split; [exact A1|exact A2].
    + cbn [filter]. destruct (live F (Slice (List.length h) (List.length cs))) eqn:E; [|exact N]. cbn [map sl_arr]. constructor; [|exact N].
      intro I. apply in_map_iff in I. destruct I as (y & Y1 & Y2). apply filter_In in Y2. destruct Y2 as [Y2 Y3]. rewrite Forall_forall in A. destruct (A _ Y2) as [A1 _].
      unfold live in Y3. apply Bool.andb_true_iff in Y3. destruct Y3 as [Y3 _]. apply Bool.negb_true_iff, Nat.eqb_neq in Y3.
      apply arr_some in A1; [|lia]. lia.
  - split; cbn [sl_len sl_arr]; [rewrite arr_new, Lx; exact C|]. unfold cells. cbn [sl_len sl_arr]. rewrite arr_new. unfold x. rewrite firstn_app, Nat.sub_diag, firstn_all. cbn [firstn]. rewrite app_nil_r.
    eapply creps_more; [exact H|intros a X; exact X|exact G].
Qed.

Lemma append_ok : forall grow F h s t L cs ds h' s', inv F h (s :: t :: L) -> swf F h s cs -> swf F h t ds -> append grow h s t = (h', s') ->
  agree F h h' /\ inv F h' (s' :: t :: L) /\ swf F h' s' (cs ++ ds) /\ Forall (kept h h') (t :: L) /\
  (sl_len s = 1 -> sl_len t = 1 -> List.length (arr h (sl_arr s)) = 1 -> grow 1 2 <= 2 -> full h' s').
Proof.
  intros grow F h s t L cs ds h' s' I Hs Ht E. unfold append in E. destruct (Nat.eqb_spec (sl_len t) 0) as [Z|Z].
  - injection E as <- <-. split; [intros a _; reflexivity|]. split; [exact I|]. rewrite (swf_zero _ _ _ _ Ht Z), app_nil_r. split; [exact Hs|].
    split; [apply Forall_forall; intros x _; right; reflexivity|]. intros. lia.
  - destruct (Nat.leb_spec (sl_len s + sl_len t) (capacity h s)) as [C|C].
    + (* in place *)
      injection E as <- <-. unfold capacity in C. destruct (Nat.eqb_spec (sl_len s) 0) as [Y|Y]; [lia|].
      destruct I as (B & A & N). pose proof A as A'. inversion A as [|? ? [A1 A2] A3]; subst.
      assert (Lv : live F s = true).
      { unfold live. destruct (Nat.eqb_spec (sl_len s) 0); [lia|]. cbn. destruct (F (sl_arr s)) eqn:Fs; [|reflexivity]. destruct (A2 eq_refl) as [?|U]; [lia|]. unfold full in U. lia. }
      assert (Fs : F (sl_arr s) = false) by (unfold live in Lv; apply Bool.andb_true_iff in Lv; destruct Lv as [_ Lv]; apply Bool.negb_true_iff in Lv; exact Lv).
      pose proof (arr_some h s ltac:(lia) A1) as Ls.
      set (x := cells h s ++ cells h t ++ skipn (sl_len s + sl_len t) (arr h (sl_arr s))).
      assert (Lcs : List.length (cells h s) = sl_len s) by (unfold cells; rewrite firstn_length; lia).
      assert (Lct : List.length (cells h t) = sl_len t) by (unfold cells; rewrite firstn_length; destruct Ht; lia).
      assert (Lx : List.length x = List.length (arr h (sl_arr s))) by (unfold x; rewrite !app_length, skipn_length; lia).
      assert (X0 : arr (set_nth (sl_arr s) x h) (sl_arr s) = x) by (rewrite arr_set, Nat.eqb_refl; apply Nat.ltb_lt in Ls; rewrite Ls; reflexivity).
      assert (G : agree F h (set_nth (sl_arr s) x h)).
      { intros a Ha. rewrite arr_set. destruct (Nat.eqb_spec (sl_arr s) a) as [<-|]; [congruence|reflexivity]. }
      assert (K : Forall (kept h (set_nth (sl_arr s) x h)) (t :: L)).
      { apply Forall_forall. intros y Y1. destruct (inv_other F h s (t :: L) y (conj B (conj A' N)) Lv Y1) as [O|O]; [left; exact O|right].
        rewrite arr_set. destruct (Nat.eqb_spec (sl_arr s) (sl_arr y)) as [V|]; [congruence|reflexivity]. }
      split; [exact G|]. split; [|split; [|split; [exact K|]]].
      * split; [intros a Ha; rewrite set_nth_len; apply B; exact Ha|]. split.
        -- constructor; cbn [sl_len sl_arr]; [rewrite X0, Lx; split; [lia|]; intro V; congruence|].
           rewrite Forall_forall in *. intros y Y1. destruct (A3 _ Y1) as [B1 B2]. destruct (K _ Y1) as [K0|K0]; unfold full; [rewrite K0; split; [lia|auto]|].
           rewrite K0. split; [exact B1|exact B2].
        -- cbn [filter] in *. rewrite Lv in N. assert (Lv' : live F (Slice (sl_arr s) (sl_len s + sl_len t)) = true).
           { unfold live. cbn [sl_len sl_arr]. rewrite Fs. destruct (Nat.eqb_spec (sl_len s + sl_len t) 0); [lia|reflexivity]. }
           rewrite Lv'. exact N.
      * split; cbn [sl_len sl_arr]; [rewrite X0, Lx; lia|]. unfold cells at 1. cbn [sl_len sl_arr]. rewrite X0.
        assert (Px : firstn (sl_len s + sl_len t) x = cells h s ++ cells h t).
        { unfold x. rewrite app_assoc, firstn_app, app_length, Lcs, Lct, Nat.sub_diag. cbn [firstn]. rewrite app_nil_r, firstn_all2 by (rewrite app_length; lia). reflexivity. }
        rewrite Px.
        apply creps_app; (eapply creps_more; [apply Hs || apply Ht|intros a V; exact V|exact G]).
      * intros. lia.
    + (* a new array *)
      assert (Lcs : List.length (cells h s) = sl_len s) by (unfold cells; rewrite firstn_length; destruct Hs; lia).
      assert (Lct : List.length (cells h t) = sl_len t) by (unfold cells; rewrite firstn_length; destruct Ht; lia).
      apply (alloc_ok F h (t :: L) _ (cs ++ ds)) in E; [|eapply inv_tail; exact I|apply creps_app; [apply Hs|apply Ht]|rewrite app_length; lia].
      destruct E as (E1 & E2 & E3 & E4 & E5 & E6). split; [exact E1|]. split; [exact E2|]. split; [exact E3|]. split; [exact E4|].
      intros H1 H2 H3 H4. unfold full. rewrite E5, E6, app_length, Lcs, Lct. unfold capacity. rewrite H1, H2, H3. cbn [Nat.eqb Nat.add]. lia.
Qed.

(** freezing the array of a slice that is dropped, or has no spare capacity *)
Lemma inv_freeze : forall F h t L, inv F h (t :: L) -> inv (freeze F t) h L.
Proof.
  intros F h t L I. destruct (inv_head _ _ _ _ I) as [T1 T2]. pose proof I as (B & A & N). inversion A as [|? ? _ A3]; subst. split; [|split].
  - intros a H. unfold freeze in H. apply Bool.orb_true_iff in H. destruct H as [H|H]; [auto|]. apply Bool.andb_true_iff in H. destruct H as [H1 H2].
    apply Nat.eqb_eq in H2. subst a. apply Bool.negb_true_iff, Nat.eqb_neq in H1. apply arr_some; [lia|exact T1].
  - rewrite Forall_forall in *. intros y Y. destruct (A3 _ Y) as [B1 B2]. split; [exact B1|]. intro H. unfold freeze in H. apply Bool.orb_true_iff in H.
    destruct H as [H|H]; [auto|]. apply Bool.andb_true_iff in H. destruct H as [H1 H2]. apply Nat.eqb_eq in H2. apply Bool.negb_true_iff, Nat.eqb_neq in H1.
    destruct (F (sl_arr y)) eqn:Fy; [auto|].
    assert (Lv : live F t = true) by (unfold live; rewrite <- H2, Fy; destruct (Nat.eqb_spec (sl_len t) 0); [contradiction|reflexivity]).
    destruct (inv_other F h t L y I Lv Y) as [O|O]; [auto|contradiction].
  - assert (S : forall M, incl M (map sl_arr (filter (live F) L)) -> True) by auto. clear S.
    apply inv_tail in I. destruct I as (_ & _ & N2). clear - N2. induction L as [|y L IH]; [constructor|]. cbn [filter] in *.
    assert (W : live (freeze F t) y = true -> live F y = true).
    { unfold live, freeze. destruct (sl_len y =? 0), (F (sl_arr y)); cbn; auto. }
    destruct (live (freeze F t) y).
    + rewrite (W eq_refl) in N2. cbn [map] in *. inversion N2; subst. constructor; [|apply IH; assumption]. intro X. apply H1.
      apply in_map_iff in X. destruct X as (z & Z1 & Z2). apply filter_In in Z2. destruct Z2 as [Z2 Z3]. rewrite <- Z1. apply in_map. apply filter_In. split; [exact Z2|].
      revert Z3. unfold live, freeze. destruct (sl_len z =? 0), (F (sl_arr z)); cbn; auto.
    + apply IH. destruct (live F y); [cbn [map] in N2; inversion N2; assumption|exact N2].
Qed.
Lemma inv_freeze_full : forall F h t L, inv F h (t :: L) -> sl_len t = 0 \/ full h t -> inv (freeze F t) h (t :: L).
Proof.
  intros F h t L I E. destruct (inv_head _ _ _ _ I) as [T1 T2]. apply inv_dead; [apply inv_freeze; exact I|exact T1|].
  destruct E as [E|E]; [auto|]. destruct (Nat.eq_dec (sl_len t) 0) as [Z|Z]; [auto|]. right. split; [|exact E].
  unfold freeze. rewrite Nat.eqb_refl. destruct (Nat.eqb_spec (sl_len t) 0); [contradiction|]. apply Bool.orb_true_r.
Qed.
Lemma freeze_self : forall F t, sl_len t = 0 \/ freeze F t (sl_arr t) = true.
Proof. intros F t. unfold freeze. rewrite Nat.eqb_refl. destruct (Nat.eqb_spec (sl_len t) 0); [auto|]. right. apply Bool.orb_true_r. Qed.
