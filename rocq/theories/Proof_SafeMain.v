(** No compiled program makes the machine panic. *)
From Verif Require Import Base Model_Charset Model_Isa Model_Input Model_Capture Model_VM Model_Code Model_Pattern Spec_Run Proof_Codegen Proof_Machine Proof_Emit Proof_Encode Proof_Optimize Proof_Main Proof_Props1 Proof_Safe Proof_SafeCode.
Local Open Scope nat_scope.

Lemma updo : forall (p : program) i x k, k <> i -> nth_error (upd i x p) k = nth_error p k.
Proof. intros. rewrite upd_nth. destruct (Nat.eqb_spec i k); [congruence|reflexivity]. Qed.
Lemma upds : forall (p : program) i x, i < List.length p -> nth_error (upd i x p) i = Some x.
Proof. intros p i x H. rewrite upd_nth, Nat.eqb_refl. destruct (Nat.ltb_spec i (List.length p)); [reflexivity|lia]. Qed.
(* ---------- from any number of steps to an invariant ---------- *)
Lemma sf_closed : forall P, closed P (fun k g => forall n, sf P n k g).
Proof.
  intros P k g H. destruct (nth_error P k) as [i|] eqn:Ei.
  - assert (R : real i = true -> astep P k g (fun k g => forall n, sf P n k g)).
    { intro Hr. unfold astep. rewrite Ei. assert (X : exec_a (map_lbl (lbl_index P) i) k (S k) g (fun k g => forall n, sf P n k g)).
      { apply exec_all. intro n. apply (sf_un P n k i g Ei Hr). apply H. }
      destruct i; try exact X; discriminate. }
    destruct i; try (apply R; reflexivity); unfold astep; rewrite Ei; intro n.
    + apply (sf_lbl' P n k l g Ei). apply H.
    + specialize (H (S n)). cbn [sf] in H. rewrite (sk_not P k _ Ei) in H by discriminate. unfold astep in H. rewrite Ei in H. exact H.
  - specialize (H 1). cbn [sf] in H. unfold astep in *. rewrite Ei. assert (E : sk P k = k).
    { unfold sk. apply nth_error_None in Ei. rewrite skipn_all2 by exact Ei. cbn. lia. }
    rewrite E, Ei in H. exact H.
Qed.
Lemma F_closed : forall P, NoDup (labels P) -> (forall x, ~ In (IOpenCall x) P) -> F P -> exists I, closed P I /\ I 0 [].
Proof.
  intros P Hn Ho HF. exists (fun k g => forall n, sf P n k g). split; [apply sf_closed|]. intro n.
  apply (F_sound P Hn P HF); [|exact I| |exact I].
  - intros t i Hi. destruct i; try exact Hi. apply nth_error_In in Hi. destruct (Ho _ Hi).
  - destruct n as [|n]; [exact I|]. cbn [sf Nat.add]. unfold sk, astep. rewrite skipn_all. cbn [nlab]. rewrite Nat.add_0_r.
    destruct (nth_error P (List.length P)) eqn:E; [|split; reflexivity]. assert (X : nth_error P (List.length P) <> None) by congruence. apply nth_error_Some in X. lia.
Qed.

(* ---------- the returns that were removed ---------- *)
Definition kok (g : nat -> Prop) (k : akind) : Prop := match k with ARet r => g r | ABt ip => g ip | _ => True end.
Definition target (i : insn) : option nat :=
  match i with
  | IJump l | IChoice l | ICall l | ICommit l | IPartialCommit l | IBackCommit l | ITestChar _ l | ITestCharNoChoice _ l
  | ITestSet _ l | ITestSetNoChoice _ l | ITestAny _ l | IMemoOpen l _ | IMemoTreeOpen l _ => Some l
  | _ => None
  end.
Section Addr.
Variable g : nat -> Prop.
Notation gs := (Forall (kok g)).
Lemma fl_addr : forall s k (Q : nat -> astack -> Prop), g k -> gs s -> fl k s Q -> fl k s (fun k s => Q k s /\ g k /\ gs s).
Proof.
  induction s as [|[] s IH]; intros k Q Hk Hs H; cbn [fl] in *; auto; inversion Hs; subst; auto.
Qed.
Lemma gs_merged : forall s h, merged s h -> gs s -> gs h.
Proof. induction 1; intro Hs; [exact Hs|]. apply IHmerged. inversion Hs; assumption. Qed.
Lemma gs_drop : forall m s, gs s -> gs (drop_trees m s).
Proof. induction s as [|[] s IH]; intro H; cbn [drop_trees]; try exact H. destruct (_ =? _)%Z; [|exact H]. inversion H; auto. Qed.
Lemma gs_tl : forall s, gs s -> gs (tl s).
Proof. intros [|x s] H; [exact H|]. inversion H; assumption. Qed.
Lemma exec_addr : forall i k next s (Q : nat -> astack -> Prop), exec_a i k next s Q -> g k -> gs s -> (forall l, target i = Some l -> g l) ->
  ((forall l, i <> IJump l) -> g next) -> exec_a i k next s (fun k s => Q k s /\ g k /\ gs s).
Proof.
  intros i k next s Q H Hk Hs Ht Hn.
  assert (FA : forall s k, g k -> gs s -> fl k s Q -> fl k s (fun k s => Q k s /\ g k /\ gs s)) by (intros; apply fl_addr; assumption).
  pose proof (gs_tl s Hs) as Htl.
  destruct i; cbn [exec_a target] in *; try exact H; try (specialize (Ht _ eq_refl)); try (assert (N : g next) by (apply Hn; discriminate));
    try (destruct s as [|[] s]; try contradiction; pose proof Hs as Hs0; inversion Hs0; subst; cbn [kok tl] in *);
    repeat match goal with H : _ /\ _ |- _ => destruct H end; repeat split; try (apply FA); auto;
    try (constructor; auto; exact I); try (apply gs_drop; assumption); try (eapply gs_merged; eassumption).
Qed.
End Addr.
Lemma un_closed : forall c, nopj c -> (exists I, closed (un c) I /\ I 0 []) -> exists I, closed c I /\ I 0 [].
Proof.
  intros c Hn (I & HI & H0). set (g := fun k => nth_error c k <> Some INop).
  assert (G0 : g 0) by (apply nopj_head; exact Hn).
  assert (LB : forall l, lbl_index (un c) l = lbl_index c l).
  { apply lbl_index_same; [apply un_len|]. intros k l. rewrite un_nth. destruct (nth_error c k) as [[]|]; cbn; split; congruence. }
  assert (GL : forall l, g (lbl_index c l)).
  { intro l. destruct (lbl_index_pos c l) as [H|H]; [unfold g; congruence|rewrite H; exact G0]. }
  exists (fun k s => I k s /\ g k /\ Forall (kok g) s). split; [|split; [exact H0|split; [exact G0|constructor]]].
  intros k s (Hi & Gk & Gs). specialize (HI k s Hi). unfold astep in *. rewrite un_nth in HI. destruct (nth_error c k) as [i|] eqn:Ei; cbn [option_map] in HI.
  - assert (NX : (forall l, i <> IJump l) -> g (S k)).
    { intros Hj E. destruct (Hn _ E) as (k' & l & E' & Hk). injection E' as <-. rewrite Ei in Hk. injection Hk as ->. apply (Hj l eq_refl). }
    assert (R : unnop i = i -> real i = true -> exec_a (map_lbl (lbl_index (un c)) i) k (S k) s I ->
              exec_a (map_lbl (lbl_index c) i) k (S k) s (fun k s => I k s /\ g k /\ Forall (kok g) s)).
    { intros _ Hr HX. replace (map_lbl (lbl_index (un c)) i) with (map_lbl (lbl_index c) i) in HX by (destruct i; cbn [map_lbl]; rewrite ?LB; reflexivity).
      apply exec_addr; [exact HX|exact Gk|exact Gs| |].
      - intros l Hl. destruct i; cbn [map_lbl target] in Hl; try discriminate; injection Hl as <-; apply GL.
      - intro Hj. apply NX. intros l ->. apply (Hj (lbl_index c l)). reflexivity. }
    destruct i; cbn [unnop] in HI; try (apply R; [reflexivity|reflexivity|exact HI]).
    + split; [exact HI|]. split; [apply NX; discriminate|exact Gs].
    + destruct (Gk Ei).
  - rewrite un_len in HI. exact HI.
Qed.

(* ---------- Optimize ---------- *)
Lemma walk_closed : forall p I, closed p I -> forall q t j, skipn t p = q -> next_insn q = Some j ->
  exists v, t <= v /\ nth_error p v = Some j /\ is_label_or_nop j = false /\ forall s, I t s -> I v s.
Proof.
  intros p I HI. induction q as [|i q IH]; intros t j Hs Hn; [discriminate|].
  assert (Hi : nth_error p t = Some i) by (rewrite <- (Nat.add_0_r t), <- (nth_skipn p t 0), Hs; reflexivity).
  assert (Hs' : skipn (S t) p = q) by (apply skipn_tl with i; exact Hs).
  cbn [next_insn] in Hn. destruct (is_label_or_nop i) eqn:Ei.
  - destruct (IH (S t) j Hs' Hn) as (v & H1 & H2 & H3 & H4). exists v. split; [lia|]. split; [exact H2|]. split; [exact H3|].
    intros s Hst. apply H4. apply HI in Hst. unfold astep in Hst. rewrite Hi in Hst. destruct i; try discriminate; exact Hst.
  - injection Hn as ->. exists t. auto.
Qed.
Lemma astep_same : forall p p' k s (Q R : nat -> astack -> Prop), List.length p' = List.length p -> (forall l, lbl_index p' l = lbl_index p l) ->
  nth_error p' k = nth_error p k -> (forall k s, Q k s -> R k s) -> astep p k s Q -> astep p' k s R.
Proof.
  intros p p' k s Q R Hl Hlb Hk HQ H. unfold astep in *. rewrite Hk. destruct (nth_error p k) as [i|]; [|congruence].
  assert (E : map_lbl (lbl_index p') i = map_lbl (lbl_index p) i) by (destruct i; cbn [map_lbl]; rewrite ?Hlb; reflexivity).
  destruct i; try (apply HQ; exact H); rewrite E; revert H; apply exec_mono; exact HQ.
Qed.
Lemma fl_self : forall s v i (I : nat -> astack -> Prop), fl v s I -> fl i s (fun k s => I k s \/ k = i /\ I v s).
Proof. induction s as [|[] s IH]; intros v i I H; cbn [fl] in *; auto. Qed.
Lemma opt_closed : forall p i, (exists I, closed p I /\ I 0 []) -> (forall l, lbl_index (opt_step (lbl_index p) p i) l = lbl_index p l) /\
  exists I, closed (opt_step (lbl_index p) p i) I /\ I 0 [].
Proof.
  intros p i (I & HI & H0). unfold opt_step.
  assert (Z : (forall l, lbl_index p l = lbl_index p l) /\ exists I, closed p I /\ I 0 []) by (split; [reflexivity|eauto]).
  assert (Hhd : forall l h t, nth_error p i = Some (IChoice l) -> nth_error p (S i) = Some h -> ch h = true ->
     match t with ITestChar _ l' | ITestSet _ l' | ITestAny _ l' => l' = l | _ => False end ->
     (forall x, lbl_index (upd (S i) INop (upd i t p)) x = lbl_index p x) /\ exists I, closed (upd (S i) INop (upd i t p)) I /\ I 0 []).
  { intros l h t H1 H2 H3 H4. set (p' := upd (S i) INop (upd i t p)).
    assert (A0 : nth_error p' i = Some t) by (unfold p'; rewrite updo by lia; apply upds; eapply nth_lt; exact H1).
    assert (A1 : nth_error p' (S i) = Some INop) by (unfold p'; apply upds; rewrite upd_len; eapply nth_lt; exact H2).
    assert (A2 : forall k, k <> i -> k <> S i -> nth_error p' k = nth_error p k) by (intros; unfold p'; rewrite !updo by assumption; reflexivity).
    assert (LN : List.length p' = List.length p) by (unfold p'; rewrite !upd_len; reflexivity).
    assert (LB : forall x, lbl_index p' x = lbl_index p x).
    { apply lbl_index_same; [exact LN|]. intros k x. destruct (Nat.eq_dec k i) as [->|N1]; [rewrite A0, H1; split; intro E; [injection E as ->; contradiction|discriminate]|].
      destruct (Nat.eq_dec k (S i)) as [->|N2]; [rewrite A1, H2; split; intro E; [discriminate|injection E as ->; discriminate]|]. rewrite A2 by assumption. tauto. }
    split; [exact LB|]. exists I. split; [|exact H0].
    assert (X1 : forall s, I (S i) s -> I (S (S i)) s /\ fl (S i) s I).
    { intros s Hs. apply HI in Hs. unfold astep in Hs. rewrite H2 in Hs. destruct h; try discriminate; exact Hs. }
    intros k s Hs. destruct (Nat.eq_dec k i) as [->|N1]; [|destruct (Nat.eq_dec k (S i)) as [->|N2]].
    - apply HI in Hs. unfold astep in *. rewrite H1 in Hs. cbn [map_lbl exec_a] in Hs. rewrite A0. pose proof (proj2 (X1 _ Hs)) as Hf. cbn [fl] in Hf.
      destruct t; try contradiction; cbn [map_lbl exec_a]; rewrite LB, H4; split; assumption.
    - unfold astep. rewrite A1. apply X1. exact Hs.
    - eapply astep_same; [exact LN|exact LB|apply A2; assumption| |apply HI; exact Hs]. auto. }
  destruct (nth_error p i) as [[]|] eqn:Ei; try exact Z.
  - destruct (next_insn (skipn (lbl_index p l) p)) as [j|] eqn:Ej; [|exact Z].
    assert (D : match j with IPartialCommit _ | IBackCommit _ | ICommit _ | IJump _ | IReturn | IFail | IFailTwice | IEnd _ => True | _ => False end ->
       (forall x, lbl_index (upd i j p) x = lbl_index p x) /\ exists I, closed (upd i j p) I /\ I 0 []).
    { intro Hj. set (p' := upd i j p). destruct (walk_closed p I HI _ _ _ eq_refl Ej) as (v & _ & V2 & V3 & V4).
      assert (A0 : nth_error p' i = Some j) by (apply upds; eapply nth_lt; exact Ei).
      assert (A2 : forall k, k <> i -> nth_error p' k = nth_error p k) by (intros; unfold p'; rewrite !updo by assumption; reflexivity).
      assert (LN : List.length p' = List.length p) by (unfold p'; rewrite !upd_len; reflexivity).
      assert (LB : forall x, lbl_index p' x = lbl_index p x).
      { apply lbl_index_same; [exact LN|]. intros k x. destruct (Nat.eq_dec k i) as [->|N1]; [|rewrite A2 by assumption; tauto].
        rewrite A0, Ei. split; intro E; [injection E as ->; contradiction|discriminate]. }
      split; [exact LB|]. exists (fun k s => I k s \/ k = i /\ I v s). split; [|left; exact H0].
      assert (X : forall s, I v s -> astep p' i s (fun k s => I k s \/ k = i /\ I v s)).
      { intros s Hs. apply HI in Hs. unfold astep in *. rewrite V2 in Hs. rewrite A0.
        destruct j; try contradiction; cbn [map_lbl exec_a] in *; rewrite ?LB; try (left; exact Hs); try (apply fl_self with (v := v); exact Hs); try exact Hs;
          destruct s as [|[] s]; try contradiction; first [left; exact Hs | apply fl_self with (v := v); exact Hs]. }
      intros k s [Hs|[-> Hs]]; [|apply X; exact Hs]. destruct (Nat.eq_dec k i) as [->|N1].
      - apply X. apply V4. apply HI in Hs. unfold astep in Hs. rewrite Ei in Hs. exact Hs.
      - eapply astep_same; [exact LN|exact LB|apply A2; assumption| |apply HI; exact Hs]. auto. }
    destruct j; try exact Z; apply D; exact Logic.I.
  - destruct (nth_error p (S i)) as [[]|] eqn:Es; try exact Z; (eapply Hhd; [reflexivity|reflexivity|reflexivity|reflexivity]).
Qed.
Theorem optimize_closed : forall p, (exists I, closed p I /\ I 0 []) -> exists I, closed (optimize p) I /\ I 0 [].
Proof.
  intros p H. unfold optimize.
  assert (G : forall l lbl q, (exists I, closed q I /\ I 0 []) -> (forall x, lbl_index q x = lbl x) -> exists I, closed (fold_left (opt_step lbl) l q) I /\ I 0 []).
  { induction l as [|i l IH]; intros lbl q H1 H2; [exact H1|]. cbn [fold_left].
    assert (Eq : opt_step lbl q i = opt_step (lbl_index q) q i).
    { unfold opt_step. destruct (nth_error q i) as [[]|]; try reflexivity. rewrite H2. reflexivity. }
    rewrite Eq. destruct (opt_closed q i H1) as [O1 O2]. apply IH; [exact O2|]. intro x. rewrite O1. apply H2. }
  apply G; [exact H|reflexivity].
Qed.

(* ---------- the compiler ---------- *)
Section Emit.
Variable thr : nat.
Notation compile_f := (compile_f thr).
Definition emits (st st' : cstate) (c : program) : Prop :=
  cs_uniq st <= cs_uniq st' /\ F (un c) /\ lab (cs_uniq st) (cs_uniq st') c /\ hdok c /\ nopj c.

Ltac labs := let x := fresh "x" in intro x;
  repeat match goal with H : lab _ _ _ |- _ => specialize (H x) end; cbn [cs_uniq cs_memo new_label] in *;
  repeat rewrite ?lc_app; cbn [lc]; repeat rewrite ?lc_app; cbn [lc];
  repeat match goal with |- context [?a =? x] => destruct (Nat.eqb_spec a x) end; lia.
Ltac uns := repeat rewrite ?un_app, ?un_cons, ?un_nil; cbn [unnop].
Ltac nops := repeat first [assumption | apply nopj_nil | apply nopj_app | (apply nopj_cons; [discriminate|]) ].
Ltac em H := destruct H as (U1 & C1 & B1 & D1 & N1).

Lemma emits0 : forall st c, F (un c) -> (forall x, lc c x = 0) -> hdok c -> nopj c -> emits st st c.
Proof. intros st c H1 H2 H3 H4. split; [lia|]. split; [exact H1|]. split; [|split; assumption]. intro x. rewrite H2. lia. Qed.

Lemma emits_alt : forall cl cr st st1 st2, emits st st1 cl -> emits st1 st2 cr ->
  emits st (CState (S (S (cs_uniq st2))) (cs_memo st2)) (alt_code cl cr (S (cs_uniq st2)) (S (S (cs_uniq st2)))).
Proof.
  intros cl cr st st1 st2 (U1 & C1 & B1 & D1 & N1) (U2 & C2 & B2 & D2 & N2). unfold alt_code.
  split; [cbn [cs_uniq]; lia|].
  destruct (alt_test cl cr (S (cs_uniq st2))) as [t|] eqn:Et.
  - assert (Hd : exists h, next_insn cl = Some h /\ is_test_head h = true /\ ch h = true /\ test t (S (cs_uniq st2)) /\ unnop h = h /\ unnop t = t /\
        (forall l, t <> ILabel l) /\ (forall l, h <> IJump l) /\ (forall c x, lc (h :: c) x = lc c x) /\ t <> INop).
    { unfold alt_test in Et. destruct (next_insn cl) as [h|]; [|discriminate]. exists h. split; [reflexivity|].
      destruct h; try discriminate; destruct (next_insn cr) as [[]|]; try discriminate;
        repeat match type of Et with (if ?b then _ else _) = _ => destruct b; try discriminate end; injection Et as <-; repeat split; discriminate. }
    destruct Hd as (h & X1 & X2 & X3 & X4 & X5 & X6 & X7 & X8 & X9 & X10).
    destruct (next_head _ _ N1 D1 X1 X2) as (cl' & ->). cbn [tl]. rewrite un_cons, X5 in C1.
    pose proof (f_tl _ C1 _ _ eq_refl X3) as C1'. apply nopj_tl in N1; [|exact X8].
    split; [|split; [|split]].
    + uns. rewrite X6. apply f_alt_test; assumption.
    + intro x. specialize (B1 x). specialize (B2 x). rewrite X9 in B1. rewrite (lc_nl t) by exact X7. cbn [cs_uniq].
      rewrite !lc_app. cbn [lc]. destruct (Nat.eqb_spec (S (cs_uniq st2)) x), (Nat.eqb_spec (S (S (cs_uniq st2))) x); lia.
    + apply hdok_cons. exact X7.
    + apply nopj_cons; [exact X10|]. nops.
  - split; [uns; apply f_alt; assumption|]. split; [labs|]. split; [apply hdok_cons; discriminate|]. nops.
Qed.

Lemma cap_prefix_ch : forall c i back, cap_prefix c = (i, back) -> forallb ch (firstn i c) = true /\ un (firstn i c) = firstn i c /\ i <= List.length c.
Proof.
  induction c as [|x c IH]; intros i back H; [injection H as <- <-; cbn; auto|].
  destruct x; try (injection H as <- <-; cbn; auto with arith; fail); cbn [cap_prefix] in H; destruct (cap_prefix c) as [i0 b0]; injection H as <- <-;
    destruct (IH _ _ eq_refl) as (H1 & H2 & H3); cbn [firstn forallb ch]; rewrite un_cons, H2; cbn [unnop List.length]; repeat split; auto with arith.
Qed.
Lemma emits_cap : forall sub id st st1, emits st st1 sub -> emits st st1 (cap_code sub id).
Proof.
  intros sub id st st1 H. em H. split; [exact U1|]. unfold cap_code. destruct (cap_prefix sub) as [i back] eqn:Ec.
  destruct (cap_prefix_ch _ _ _ Ec) as (P1 & P2 & P3). destruct ((i =? 0) || (256 <=? back)%N) eqn:Ei.
  - split; [uns; apply f_cap; exact C1|]. split; [labs|]. split; [apply hdok_cons; discriminate|]. nops.
  - apply orb_false_iff in Ei. destruct Ei as [Ei _]. apply Nat.eqb_neq in Ei.
    destruct (Nat.eqb_spec i (List.length sub)) as [->|Hi].
    + split; [uns; apply f_app; [exact C1|apply f_plain; reflexivity]|]. split; [labs|]. split; [|nops].
      apply hdok_app; [exact D1|apply hdok_cons; discriminate].
    + assert (Hlen : List.length (firstn i sub) = i) by (rewrite firstn_length; lia).
      rewrite <- (firstn_skipn i sub) in C1, N1, B1. rewrite un_app, P2 in C1.
      assert (NA : nopj (firstn i sub)).
      { intros j Hj. exfalso. apply nth_error_In in Hj. rewrite forallb_forall in P1. apply P1 in Hj. discriminate. }
      assert (NB : nopj (skipn i sub)).
      { intros j Hj. destruct (N1 (i + j)) as (k & l & Ek & Hk).
        { rewrite nth_error_app2 by lia. rewrite Hlen. replace (i + j - i) with j by lia. exact Hj. }
        destruct j as [|j].
        - exfalso. rewrite Nat.add_0_r in Ek. rewrite nth_error_app1 in Hk by lia. apply nth_error_In in Hk. rewrite forallb_forall in P1. apply P1 in Hk. discriminate.
        - exists j, l. split; [reflexivity|]. rewrite nth_error_app2 in Hk by lia. rewrite Hlen in Hk. replace (k - i) with j in Hk by lia. exact Hk. }
      pose proof (f_skip _ _ P1 C1) as C2.
      assert (FA : F (firstn i sub)).
      { clear - P1. induction (firstn i sub) as [|x q IH]; [apply f_nil|]. cbn [forallb] in P1. apply andb_true_iff in P1. destruct P1 as [P0 P1].
        apply (f_app [x] q); [apply f_plain; destruct x; try discriminate; reflexivity|apply IH; exact P1]. }
      split; [|split; [|split]].
      * uns. rewrite P2. apply f_app; [exact FA|]. apply f_late. exact C2.
      * intro x. specialize (B1 x). rewrite !lc_app in *. cbn [lc]. lia.
      * intros l Hl. destruct (firstn i sub) as [|a sub']; [cbn in Hlen; lia|]. injection Hl as ->. cbn in P1. discriminate.
      * nops.
Qed.

Lemma gloop_emits : forall fuel start used,
  (forall p st c st', compile_f fuel p st = COk c st' -> emits st st' c) ->
  forall ds st code lbls code' st' lbls', gloop thr fuel start used ds st code lbls = (COk code' st', lbls') ->
  exists bs, code' = code ++ List.concat (map blk bs) /\ lbls' = lbls ++ blk_lbls bs /\ cs_uniq st <= cs_uniq st' /\
    lab (cs_uniq st) (cs_uniq st') (List.concat (map blk bs)) /\ (forall b, In b bs -> F (un (b_code b))) /\ nopj (List.concat (map blk bs)).
Proof.
  intros fuel start used IH. induction ds as [|[k v] ds IHd]; intros st code lbls code' st' lbls' H.
  - injection H as <- <- <-. exists []. cbn. rewrite !app_nil_r. split; [reflexivity|]. split; [reflexivity|]. split; [lia|].
    split; [intro x; cbn; lia|]. split; [intros b []|apply nopj_nil].
  - cbn [gloop] in H. destruct (negb (String.eqb k start) && negb (str_mem k used)); [apply IHd in H; exact H|].
    unfold new_label in H. destruct (compile_f fuel v (CState (S (cs_uniq st)) (cs_memo st))) as [fn st1| | |] eqn:Ec; try discriminate.
    destruct (IH _ _ _ _ Ec) as (U1 & C1 & B1 & _ & N1). destruct (IHd _ _ _ _ _ _ H) as (bs & I1 & I2 & U2 & B2 & I5 & N2). cbn [cs_uniq] in *.
    exists (Block k (S (cs_uniq st)) v fn :: bs). cbn [map List.concat].
    split; [rewrite I1; unfold blk at 2; cbn [b_lbl b_code app]; rewrite <- !app_assoc; cbn [app]; rewrite <- !app_assoc; reflexivity|].
    split; [rewrite I2, <- app_assoc; reflexivity|]. split; [lia|]. split; [unfold blk at 1; cbn [b_lbl b_code]; labs|]. split.
    + intros b [<-|Hb]; [exact C1|auto].
    + unfold blk at 1. cbn [b_lbl b_code]. nops.
Qed.

Theorem emit_any : forall fuel p st c st', compile_f fuel p st = COk c st' -> emits st st' c.
Proof.
  induction fuel as [|fuel IH]; intros p st c st' H; [discriminate|].
  assert (LEAF : forall st i, plain i = true -> emits st st [i]).
  { intros st0 i Hi. apply emits0; [destruct i; try discriminate; apply f_plain; first [reflexivity|exact Hi]|destruct i; try discriminate; reflexivity|apply hdok_cons; intros l ->; discriminate|apply nopj_one; intros ->; discriminate]. }
  destruct p.
  - (* alternative *)
    cbn [Model_Pattern.compile_f] in H. destruct (combine (get p1) (get p2)) as [set|] eqn:Ec.
    + injection H as <- <-. apply LEAF. reflexivity.
    + apply cbind_ok in H. destruct H as (cl & st1 & H1 & H). apply cbind_ok in H. destruct H as (cr & st2 & H2 & H).
      unfold new_label in H. cbn [cs_uniq cs_memo] in H. injection H as <- <-. eapply emits_alt; [eapply IH; exact H1|eapply IH; exact H2].
  - (* sequence *)
    cbn [Model_Pattern.compile_f] in H. apply cbind_ok in H. destruct H as (cl & st1 & H1 & H). apply cbind_ok in H. destruct H as (cr & st2 & H2 & H). injection H as <- <-.
    apply IH in H1, H2. em H1. destruct H2 as (U2 & C2 & B2 & D2 & N2). split; [lia|]. split; [uns; apply f_app; assumption|]. split; [labs|]. split; [apply hdok_app; assumption|nops].
  - (* star *)
    cbn [Model_Pattern.compile_f] in H.
    assert (DEF : cbind (compile_f fuel (get p) st) (fun sub st => COk ([IChoice (S (S (cs_uniq st))); ILabel (S (cs_uniq st))] ++ sub ++ [IPartialCommit (S (cs_uniq st)); ILabel (S (S (cs_uniq st)))])
                     (CState (S (S (cs_uniq st))) (cs_memo st))) = COk c st' -> emits st st' c).
    { intros HH. apply cbind_ok in HH. destruct HH as (sub & st1 & H1 & HH). injection HH as <- <-. apply IH in H1. em H1.
      split; [cbn [cs_uniq]; lia|]. split; [uns; apply f_star; exact C1|]. split; [labs|]. split; [apply hdok_cons; discriminate|]. nops. }
    destruct (get p) eqn:Eg; try (apply DEF; exact H).
    + apply cbind_ok in H. destruct H as (sub & st1 & H1 & H). unfold new_label in H. cbn [cs_uniq cs_memo] in H. injection H as <- <-. apply IH in H1. em H1.
      split; [cbn [cs_uniq]; lia|]. split; [uns; apply f_tree; exact C1|]. split; [labs|]. split; [intros l Hl; eexists _, _; reflexivity|nops].
    + injection H as <- <-. apply LEAF. reflexivity.
  - (* plus *)
    cbn [Model_Pattern.compile_f] in H. apply cbind_ok in H. destruct H as (star & st1 & H1 & H). apply cbind_ok in H. destruct H as (sub & st2 & H2 & H). injection H as <- <-.
    apply IH in H1, H2. em H1. destruct H2 as (U2 & C2 & B2 & D2 & N2). split; [lia|]. split; [uns; apply f_app; assumption|]. split; [labs|]. split; [apply hdok_app; assumption|nops].
  - (* optional *)
    cbn [Model_Pattern.compile_f] in H.
    destruct (get p) eqn:Eg; try (apply IH in H; exact H).
    + injection H as <- <-. split; [cbn [cs_uniq]; lia|]. split; [apply f_opt; reflexivity|]. split; [labs|]. split; [apply hdok_cons; discriminate|nops].
    + destruct str as [|b [|b2 str]]; try (apply IH in H; exact H).
      injection H as <- <-. split; [cbn [cs_uniq]; lia|]. split; [apply f_opt; reflexivity|]. split; [labs|]. split; [apply hdok_cons; discriminate|nops].
  - (* not *)
    cbn [Model_Pattern.compile_f] in H. apply cbind_ok in H. destruct H as (sub & st1 & H1 & H). injection H as <- <-. apply IH in H1. em H1.
    split; [cbn [cs_uniq]; lia|]. split; [uns; apply f_not; exact C1|]. split; [labs|]. split; [apply hdok_cons; discriminate|nops].
  - (* and *)
    cbn [Model_Pattern.compile_f] in H. apply cbind_ok in H. destruct H as (sub & st1 & H1 & H). injection H as <- <-. apply IH in H1. em H1.
    split; [cbn [cs_uniq]; lia|]. split; [uns; apply f_and; exact C1|]. split; [labs|]. split; [apply hdok_cons; discriminate|nops].
  - (* capture *)
    cbn [Model_Pattern.compile_f] in H. apply cbind_ok in H. destruct H as (sub & st1 & H1 & H). injection H as <- <-. apply emits_cap. eapply IH. exact H1.
  - (* memo *)
    cbn [Model_Pattern.compile_f] in H. unfold new_label in H. apply cbind_ok in H. destruct H as (sub & st1 & H1 & H). injection H as <- <-. apply IH in H1. em H1. cbn [cs_uniq] in *.
    split; [lia|]. split; [uns; apply f_memo; exact C1|]. split; [labs|]. split; [apply hdok_cons; discriminate|nops].
  - (* check *)
    cbn [Model_Pattern.compile_f] in H. unfold new_label in H. apply cbind_ok in H. destruct H as (sub & st1 & H1 & H). injection H as <- <-. apply IH in H1. em H1. cbn [cs_uniq] in *.
    split; [lia|]. split; [uns; apply f_check; exact C1|]. split; [labs|]. split; [apply hdok_cons; discriminate|nops].
  - (* grammar *)
    rewrite compile_grammar in H. cbv zeta in H. set (D := inline_all thr defs) in *.
    destruct (used_names D) as [|u0 us] eqn:Eu.
    + destruct (assoc D start) as [b|] eqn:Ea; [|discriminate]. apply IH in H. exact H.
    + rewrite <- Eu in *. clear Eu.
      destruct (gloop thr fuel start (used_names D) D (CState (S (cs_uniq st)) (cs_memo st)) [IOpenCall start; IJump (S (cs_uniq st))] []) as [[code st1| | |] lbls] eqn:El; try discriminate.
      destruct (resolve lbls code) as [x|code'] eqn:Er; [discriminate|]. injection H as <- <-.
      destruct (gloop_emits _ _ _ IH _ _ _ _ _ _ _ El) as (bs & I1 & I2 & U1 & B1 & I5 & N1). cbn [cs_uniq] in *.
      assert (Hn : nopj code) by (rewrite I1; nops).
      destruct (resolve_ok _ _ _ Er Hn) as [Hn' Hr].
      split; [lia|]. split; [|split; [|split]].
      * uns. apply (f_grammar start (S (cs_uniq st)) (map unb bs)).
        -- intros b Hb. apply in_map_iff in Hb. destruct Hb as (b0 & <- & Hb). cbn [unb b_code]. apply I5. exact Hb.
        -- rewrite lbls_unb, blks_unb. rewrite I1, I2 in Hr. exact Hr.
      * intro x. rewrite lc_app. rewrite <- lc_un, (resolved_lc _ _ _ Hr), lc_un, I1, lc_app. specialize (B1 x). cbn [lc]. destruct (Nat.eqb_spec (S (cs_uniq st)) x); lia.
      * destruct Hr as [_ Hr]. specialize (Hr 0). rewrite I1 in Hr. cbn in Hr. destruct Hr as (l & _ & Hr). intros l' Hl'. exfalso.
        destruct code' as [|a code']; [destruct Hr as [Hr|[Hr _]]; discriminate|]. injection Hl' as ->. cbn in Hr. destruct Hr as [Hr|[Hr _]]; discriminate.
      * apply nopj_app; [exact Hn'|nops].
  - (* search *)
    cbn [Model_Pattern.compile_f] in H. apply cbind_ok in H. destruct H as (sub & st1 & H1 & H). apply IH in H1, H. em H1. destruct H as (U2 & C2 & B2 & D2 & N2).
    split; [lia|]. split; [exact C2|]. split; [|split; assumption]. intro x. specialize (B2 x). lia.
  - injection H as <- <-. apply LEAF. reflexivity.
  - injection H as <- <-. apply emits0.
    + induction str as [|b str IHs]; [apply f_nil|]. apply (f_app [IChar b]); [apply f_plain; reflexivity|exact IHs].
    + intro x. clear. induction str as [|b str IHs]; [reflexivity|exact IHs].
    + destruct str; [intros l Hl; discriminate|apply hdok_cons; discriminate].
    + clear. induction str as [|b str IHs]; [apply nopj_nil|apply nopj_cons; [discriminate|exact IHs]].
  - destruct inl as [q|]; [cbn [Model_Pattern.compile_f] in H; apply IH in H; exact H|]. injection H as <- <-. apply LEAF. reflexivity.
  - injection H as <- <-. apply LEAF. reflexivity.
  - destruct recover as [q|].
    + cbn [Model_Pattern.compile_f] in H. apply cbind_ok in H. destruct H as (sub & st1 & H1 & H). injection H as <- <-. apply IH in H1. em H1.
      split; [exact U1|]. split; [uns; apply (f_app [IError msg]); [apply f_plain; reflexivity|exact C1]|]. split; [labs|]. split; [apply hdok_cons; discriminate|nops].
    + injection H as <- <-. apply emits0; [apply (f_app [IError msg] [IEnd true]); apply f_plain; reflexivity|reflexivity|apply hdok_cons; discriminate|nops].
  - injection H as <- <-. apply LEAF. reflexivity.
  - injection H as <- <-. apply emits0; [apply f_nil|reflexivity|intros l Hl; discriminate|apply nopj_nil].
Qed.
End Emit.

(* ---------- the result ---------- *)
Theorem compiled_closed : forall thr p code, compiled thr p code -> exists c I, encode c = Some code /\ closed c I /\ I 0 [].
Proof.
  intros thr p code (fuel & st0 & c & st1 & Hc & He).
  unfold compile in Hc. destruct (Model_Pattern.compile_f thr fuel p st0) as [c0 st2| | |] eqn:Ec; try discriminate. injection Hc as <- <-.
  apply emit_any in Ec. destruct Ec as (_ & C1 & B1 & _ & N1).
  assert (NO : forall x, ~ In (IOpenCall x) (un c0)).
  { intros x Hx. apply un_out in Hx; [|discriminate|discriminate]. apply optimize_open in Hx. revert Hx. unfold encode in He.
    destruct (encode_loop _ _ _) eqn:El; [|discriminate]. eapply loop_open. exact El. }
  assert (ND : NoDup (labels (un c0))) by (apply lc_nodup; intro x; rewrite lc_un; apply B1).
  destruct (optimize_closed _ (un_closed _ N1 (F_closed _ ND NO C1))) as (I & HI & H0). eauto.
Qed.
Theorem exec_never : forall bufsz T (ops : table_ops T) CS check intrvl thr p code s t (cs : CS) f,
  0 < bufsz -> compiled thr p code -> vm_exec bufsz ops check intrvl f code s t cs <> Some RCrash.
Proof.
  intros bufsz T ops CS check intrvl thr p code s t cs f Hb Hc H. destruct (compiled_closed _ _ _ Hc) as (c & I & He & HI & H0).
  destruct (encode_runs bufsz T ops CS check intrvl _ _ s t cs Hb He) as [_ R]. destruct (R _ _ H) as (m & x & Hx & Hs).
  destruct x; [contradiction|]. revert Hx. apply (closed_safe bufsz T ops CS check intrvl _ _ HI). exact H0.
Qed.
