(** The compiler's output is described by CG (Proof_Codegen.v), and its labels and memo ids are fresh. *)
From Verif Require Import Base Model_Charset Proof_Charset Model_Isa Model_Capture Model_VM Model_Pattern Spec_Peg Spec_Scope Proof_Eval Proof_Get Proof_Inline Proof_Codegen Proof_Compile.
Local Open Scope nat_scope.
Arguments Nat.max : simpl never.

(** the view of generated code in which a return behind a tail call is still there *)
Definition unnop (i : insn) : insn := match i with INop => IReturn | i => i end.
Definition un (c : program) : program := map unnop c.
Lemma un_app : forall a b, un (a ++ b) = un a ++ un b. Proof. intros. apply map_app. Qed.
Lemma un_len : forall c, List.length (un c) = List.length c. Proof. intros. apply map_length. Qed.
Lemma un_nth : forall c t, nth_error (un c) t = option_map unnop (nth_error c t). Proof. intros. apply nth_error_map. Qed.

(** labels, counted *)
Fixpoint lc (c : program) (x : nat) : nat :=
  match c with
  | [] => 0
  | ILabel l :: c => (if l =? x then 1 else 0) + lc c x
  | _ :: c => lc c x
  end.
Lemma lc_app : forall a b x, lc (a ++ b) x = lc a x + lc b x.
Proof. induction a as [|i a IH]; intros; [reflexivity|]. destruct i; simpl; rewrite IH; lia. Qed.
Lemma lc_un : forall c x, lc (un c) x = lc c x.
Proof. induction c as [|i c IH]; intros; [reflexivity|]. destruct i; simpl; rewrite ?IH; reflexivity. Qed.
Lemma lc_in : forall c x, In x (labels c) -> 0 < lc c x.
Proof.
  induction c as [|i c IH]; intros x H; [destruct H|]. destruct i; simpl in *; auto.
  destruct (Nat.eqb_spec l x); [lia|]. destruct H; [contradiction|]. apply IH in H. lia.
Qed.
Lemma lc_nodup : forall c, (forall x, lc c x <= 1) -> NoDup (labels c).
Proof.
  induction c as [|i c IH]; intro H; [constructor|].
  destruct i; simpl in *; try (apply IH; exact H). constructor.
  - intro Hi. apply lc_in in Hi. specialize (H l). rewrite Nat.eqb_refl in H. lia.
  - apply IH. intro x. specialize (H x). destruct (l =? x); lia.
Qed.
Lemma lc_nl : forall i c x, (forall l, i <> ILabel l) -> lc (i :: c) x = lc c x.
Proof. intros i c x H. destruct i; try reflexivity. destruct (H l eq_refl). Qed.
Lemma lc_same : forall a b, List.length a = List.length b ->
  (forall t l, nth_error a t = Some (ILabel l) <-> nth_error b t = Some (ILabel l)) -> forall x, lc a x = lc b x.
Proof.
  induction a as [|i a IH]; intros [|j b] Hl H x; try discriminate; [reflexivity|]. injection Hl as Hl.
  assert (Hr : lc a x = lc b x) by (apply IH; [exact Hl|]; intros t l; exact (H (S t) l)).
  assert (Hj : forall l, i = ILabel l <-> j = ILabel l).
  { intro l. specialize (H 0 l). cbn [nth_error] in H. split; intros ->; [destruct H as [H _]|destruct H as [_ H]]; specialize (H eq_refl); congruence. }
  assert (Hd : (exists l, i = ILabel l) \/ forall l, i <> ILabel l) by (destruct i; ((right; discriminate) || (left; eexists; reflexivity))).
  destruct Hd as [(l & ->)|Hd].
  - rewrite (proj1 (Hj l) eq_refl). simpl. rewrite Hr. reflexivity.
  - rewrite !lc_nl; [exact Hr| |exact Hd]. intros l E. apply (Hd l). apply Hj. exact E.
Qed.
Definition lab (lo hi : nat) (c : program) : Prop := forall x, lc c x <= 1 /\ (0 < lc c x -> lo < x <= hi).

(** a Nop is always behind a jump *)
Definition nopj (c : program) : Prop := forall j, nth_error c j = Some INop -> exists k l, j = S k /\ nth_error c k = Some (IJump l).
Lemma nopj_nil : nopj []. Proof. intros [|j]; discriminate. Qed.
Lemma nopj_app : forall a b, nopj a -> nopj b -> nopj (a ++ b).
Proof.
  intros a b Ha Hb j H. destruct (Nat.ltb_spec j (List.length a)) as [L|L].
  - rewrite nth_error_app1 in H by exact L. destruct (Ha _ H) as (k & l & -> & Hk). exists k, l. split; [reflexivity|].
    rewrite nth_error_app1 by lia. exact Hk.
  - rewrite nth_error_app2 in H by exact L. destruct (Hb _ H) as (k & l & E & Hk). exists (List.length a + k), l. split; [lia|].
    rewrite nth_error_app2 by lia. replace (List.length a + k - List.length a) with k by lia. exact Hk.
Qed.
Lemma nopj_one : forall i, i <> INop -> nopj [i].
Proof. intros i H [|[|j]] E; try discriminate. injection E as E. contradiction. Qed.
Lemma nopj_cons : forall i c, i <> INop -> nopj c -> nopj (i :: c).
Proof. intros i c H Hc. apply (nopj_app [i] c); [apply nopj_one; exact H|exact Hc]. Qed.
Lemma nopj_tl : forall i c, (forall l, i <> IJump l) -> nopj (i :: c) -> nopj c.
Proof.
  intros i c Hi H j Hj. destruct (H (S j) Hj) as (k & l & E & Hk). injection E as <-. destruct j as [|j].
  - injection Hk as Hk. destruct (Hi _ Hk).
  - exists j, l. auto.
Qed.
Lemma nopj_head : forall c, nopj c -> nth_error c 0 <> Some INop.
Proof. intros c H E. destruct (H _ E) as (k & l & E' & _). discriminate. Qed.

(** a leading label belongs to a memo tree loop *)
Definition hdok (c : program) : Prop := forall l, nth_error c 0 = Some (ILabel l) -> exists l' m, nth_error c 1 = Some (IMemoTreeOpen l' m).
Lemma hdok_app : forall a b, hdok a -> hdok b -> hdok (a ++ b).
Proof.
  intros [|i a] b Ha Hb; [exact Hb|]. intros l Hl. destruct (Ha l Hl) as (l' & m & H). exists l', m.
  destruct a; [discriminate|exact H].
Qed.
Lemma hdok_cons : forall i c, (forall l, i <> ILabel l) -> hdok (i :: c).
Proof. intros i c H l E. injection E as E. destruct (H _ E). Qed.
Lemma next_head : forall c h, nopj c -> hdok c -> next_insn c = Some h -> is_test_head h = true -> exists c', c = h :: c'.
Proof.
  intros [|i c] h Hn Hh H Ht; [discriminate|]. simpl in H. destruct (is_label_or_nop i) eqn:Ei.
  - destruct i; try discriminate.
    + destruct (Hh l eq_refl) as (l' & m & E). destruct c as [|j c]; [discriminate|]. injection E as ->. simpl in H. injection H as <-. discriminate.
    + destruct (nopj_head _ Hn eq_refl).
  - injection H as ->. eauto.
Qed.
Lemma skip_head : forall c, nopj c -> hdok c -> search_skip c = skip_of (un c).
Proof.
  intros c Hn Hh. unfold search_skip. destruct c as [|i c]; [reflexivity|].
  destruct i; cbn [next_insn is_label_or_nop un map unnop skip_of]; lazymatch goal with |- context [next_insn] => idtac | |- _ => reflexivity end.
  - destruct (Hh l eq_refl) as (l' & m & E). destruct c as [|j c]; [discriminate|]. injection E as ->. reflexivity.
  - destruct (nopj_head _ Hn eq_refl).
Qed.

Lemma dotok_pos : forall W n, dotok W n -> n <> x00. Proof. intros W n [->|[_ H]]; [discriminate|exact H]. Qed.
Section Shape.
Variable W : Prop.
Definition okn (i : insn) : Prop := match i with IAny n => dotok W n | ITestAny n _ => n = x01 | _ => True end.
Definition any1 (c : program) : Prop := forall i, In i c -> okn i.
Definition opens (c : program) (l : list string) : Prop := forall x, In (IOpenCall x) c -> In x l.
Record shape (c : program) (l : list string) : Prop := Shape
  { sh_nop : nopj c; sh_any : any1 c; sh_open : opens c l }.
Definition simple (i : insn) : bool := match i with INop | IAny _ | ITestAny _ _ | IOpenCall _ => false | _ => true end.
Lemma shape_nil : forall l, shape [] l.
Proof. intro l. split; [apply nopj_nil|intros n []|intros x []]. Qed.
Lemma shape_app : forall a b l, shape a l -> shape b l -> shape (a ++ b) l.
Proof.
  intros a b l [A1 A2 A3] [B1 B2 B3]. split; [apply nopj_app; assumption| |].
  - intros n H. apply in_app_or in H. destruct H; auto.
  - intros x H. apply in_app_or in H. destruct H; auto.
Qed.
Lemma shape_cons : forall i c l, simple i = true -> shape c l -> shape (i :: c) l.
Proof.
  intros i c l Hs [A1 A2 A3]. split; [apply nopj_cons; [destruct i; discriminate|assumption]| |].
  - intros j [->|H]; [destruct j; try exact I; discriminate|auto].
  - intros x [->|H]; [discriminate|auto].
Qed.
Lemma shape_sub : forall c l l', (forall x, In x l -> In x l') -> shape c l -> shape c l'.
Proof. intros c l l' H [A1 A2 A3]. split; auto. intros x Hx. auto. Qed.
Lemma shape_tl : forall i c l, (forall l, i <> IJump l) -> shape (i :: c) l -> shape c l.
Proof.
  intros i c l Hi [A1 A2 A3]. split; [eapply nopj_tl; eassumption| |].
  - intros n H. apply A2. right. exact H.
  - intros x H. apply A3. right. exact H.
Qed.
Lemma shape_split : forall a b l, forallb charlike a = true -> shape (a ++ b) l -> shape a l /\ shape b l.
Proof.
  induction a as [|i a IH]; intros b l H Hs; [split; [apply shape_nil|exact Hs]|].
  simpl in H. apply andb_true_iff in H. destruct H as [H1 H2].
  destruct (IH b l H2) as [I1 I2]; [eapply shape_tl; [|exact Hs]; intros l'; destruct i; discriminate|]. split; [|exact I2].
  destruct Hs as [_ S2 S3]. destruct I1 as [A1 A2 A3]. split.
  - apply nopj_cons; [destruct i; discriminate|exact A1].
  - intros n [->|Hn]; [apply S2; left; reflexivity|auto].
  - intros x [->|Hn]; [discriminate|auto].
Qed.

(* ---------- captures ---------- *)
Lemma cap_prefix_ok : forall c i back, any1 c -> cap_prefix c = (i, back) ->
  forallb charlike (firstn i c) = true /\ back = N.of_nat (wds (firstn i c)) /\ i <= List.length c.
Proof.
  induction c as [|ins c IH]; intros i back Ha H; simpl in H.
  - injection H as <- <-. auto.
  - assert (Ha' : any1 c) by (intros n Hn; apply Ha; right; exact Hn).
    destruct ins; try (injection H as <- <-; simpl; repeat split; lia);
      destruct (cap_prefix c) as [i0 b0]; destruct (IH _ _ Ha' eq_refl) as (H1 & H2 & H3); injection H as <- <-; cbn [firstn forallb charlike List.length].
    + rewrite H1, wds_cons. cbn [wd]. repeat split; lia.
    + rewrite H1, wds_cons. cbn [wd]. repeat split; lia.
    + pose proof (dotok_pos _ _ (Ha (IAny n) (or_introl eq_refl))) as Hn1. apply byte_eqb_neq in Hn1. rewrite Hn1, H1, wds_cons. cbn [wd negb]. subst b0. repeat split; lia.
Qed.

(* ---------- resolution of calls ---------- *)
Lemma upd_nth : forall {A} (l : list A) i x j, nth_error (upd i x l) j = if (i =? j) && (j <? List.length l) then Some x else nth_error l j.
Proof.
  induction l as [|y l IH]; intros [|i] x [|j]; simpl; try reflexivity.
  - rewrite andb_false_r. reflexivity.
  - rewrite IH. reflexivity.
Qed.
Lemma upd_len : forall {A} (l : list A) i x, List.length (upd i x l) = List.length l.
Proof. induction l as [|y l IH]; intros [|i] x; simpl; auto. Qed.
Lemma un_upd : forall c i x, un (upd i x c) = upd i (unnop x) (un c).
Proof. induction c as [|y c IH]; intros [|i] x; simpl; auto. f_equal. apply IH. Qed.
Lemma upd_id : forall {A} (l : list A) i x, nth_error l i = Some x -> upd i x l = l.
Proof. induction l as [|y l IH]; intros [|i] x H; simpl in *; try discriminate; [congruence|]. f_equal. auto. Qed.

(** between an open call and the return that nextInsn finds there are only labels *)
Lemma next_return : forall c, (forall j, nth_error c j = Some INop -> exists k l, j = S k /\ nth_error c k = Some (IJump l)) ->
  next_insn c = Some IReturn -> exists v, nth_error c v = Some IReturn /\ forall z, z < v -> exists l, nth_error c z = Some (ILabel l).
Proof.
  induction c as [|i c IH]; intros Hn H; [discriminate|]. simpl in H. destruct (is_label_or_nop i) eqn:Ei.
  - destruct i; try discriminate.
    + destruct IH as (v & H1 & H2); [|exact H|].
      * intros j Hj. destruct (Hn (S j) Hj) as (k & l' & E & Hk). injection E as <-. destruct j as [|j]; [discriminate|]. exists j, l'. auto.
      * exists (S v). split; [exact H1|]. intros [|z] Hz; [exists l; reflexivity|]. apply H2. lia.
    + destruct (Hn 0 eq_refl) as (k & l & E & _). discriminate.
  - injection H as ->. exists 0. split; [reflexivity|]. intros z Hz. lia.
Qed.
Lemma had_label : forall c k r, next_insn_label_aux c k true <> (Some r, false).
Proof. induction c as [|ins c IH]; intros k r; [discriminate|]. destruct ins; simpl; try discriminate; apply IH. Qed.
Lemma next_label0 : forall c i had r, (forall j, nth_error c j = Some INop -> exists k l, j = S k /\ nth_error c k = Some (IJump l)) ->
  next_insn_label_aux c i had = (Some r, false) -> r = i.
Proof.
  intros [|ins c] i had r Hn H; [discriminate|]. destruct ins; simpl in H; try congruence.
  - destruct (had_label _ _ _ H).
  - destruct (Hn 0 eq_refl) as (k & l & E & _). discriminate.
Qed.
Lemma nth_skipn : forall {A} (l : list A) i j, nth_error (skipn i l) j = nth_error l (i + j).
Proof. induction l as [|x l IH]; intros [|i] j; simpl; auto. destruct j; reflexivity. Qed.

Lemma resolve_loop_ok : forall n i lbls cur cur', resolve_loop n i lbls cur = inr cur' -> i + n = List.length cur -> nopj cur ->
  nopj cur' /\ List.length cur' = List.length cur /\
  (forall t, t < i -> nth_error (un cur') t = nth_error (un cur) t) /\
  (forall t, i <= t -> match nth_error (un cur) t with
     | Some (IOpenCall x) => exists l, assoc lbls x = Some l /\
         (nth_error (un cur') t = Some (ICall l) \/ nth_error (un cur') t = Some (IJump l) /\ tailp (un cur') (S t))
     | o => nth_error (un cur') t = o end).
Proof.
  induction n as [|n IH]; intros i lbls cur cur' H Hl Hn.
  - injection H as <-. split; [exact Hn|]. split; [reflexivity|]. split; [reflexivity|]. intros t Ht.
    assert (E : nth_error (un cur) t = None) by (apply nth_error_None; rewrite un_len; lia). rewrite E. reflexivity.
  - cbn [resolve_loop] in H.
    assert (Hi : i < List.length cur) by lia.
    assert (Hskip : forall j, nth_error cur i <> None -> (forall l, nth_error cur i <> Some (IJump l)) -> nth_error (skipn (S i) cur) j = Some INop ->
       exists k l, j = S k /\ nth_error (skipn (S i) cur) k = Some (IJump l)).
    { intros j _ Hj E. rewrite nth_skipn in E. destruct (Hn _ E) as (k & l & Ek & Hk). destruct j as [|j].
      - exfalso. assert (k = i) by lia. subst k. exact (Hj _ Hk).
      - exists j, l. split; [reflexivity|]. rewrite nth_skipn. replace (S i + j) with k by lia. exact Hk. }
    (* a step that changes the un-view at [i] only *)
    assert (STEP : forall cur1 x l ins, nth_error cur i = Some (IOpenCall x) -> assoc lbls x = Some l -> resolve_loop n (S i) lbls cur1 = inr cur' ->
      List.length cur1 = List.length cur -> nopj cur1 -> un cur1 = upd i ins (un cur) ->
      (ins = ICall l \/ ins = IJump l /\ tailp (un cur1) (S i)) ->
      nopj cur' /\ List.length cur' = List.length cur /\
      (forall t, t < i -> nth_error (un cur') t = nth_error (un cur) t) /\
      (forall t, i <= t -> match nth_error (un cur) t with
       | Some (IOpenCall x) => exists l, assoc lbls x = Some l /\
         (nth_error (un cur') t = Some (ICall l) \/ nth_error (un cur') t = Some (IJump l) /\ tailp (un cur') (S t))
       | o => nth_error (un cur') t = o end)).
    { intros cur1 x l ins Ex Ea Hr Hl1 Hn1 Hu Hins. destruct (IH _ _ _ _ Hr ltac:(lia) Hn1) as (I1 & I2 & I3 & I4).
      assert (Hne : forall t, t <> i -> nth_error (un cur1) t = nth_error (un cur) t).
      { intros t Ht. rewrite Hu, upd_nth. destruct (Nat.eqb_spec i t); [lia|reflexivity]. }
      assert (Heq : nth_error (un cur1) i = Some ins).
      { rewrite Hu, upd_nth, Nat.eqb_refl, un_len. apply Nat.ltb_lt in Hi. rewrite Hi. reflexivity. }
      split; [exact I1|]. split; [lia|]. split.
      - intros t Ht. rewrite I3 by lia. apply Hne. lia.
      - intros t Ht. destruct (Nat.eq_dec t i) as [->|Hti].
        + rewrite un_nth, Ex. cbn [option_map unnop]. exists l. split; [exact Ea|]. rewrite I3 by lia. rewrite Heq.
          destruct Hins as [->|[-> (v & Hv & Hr1 & Hr2)]]; [left; reflexivity|right]. split; [reflexivity|].
          exists v. split; [exact Hv|]. split.
          * specialize (I4 v ltac:(lia)). rewrite Hr1 in I4. exact I4.
          * intros z Hz. destruct (Hr2 z Hz) as (l' & E). exists l'. specialize (I4 z ltac:(lia)). rewrite E in I4. exact I4.
        + specialize (I4 t ltac:(lia)). rewrite Hne in I4 by exact Hti. exact I4. }
    assert (SAME : (forall x, nth_error cur i <> Some (IOpenCall x)) -> resolve_loop n (S i) lbls cur = inr cur' ->
      nopj cur' /\ List.length cur' = List.length cur /\
      (forall t, t < i -> nth_error (un cur') t = nth_error (un cur) t) /\
      (forall t, i <= t -> match nth_error (un cur) t with
       | Some (IOpenCall x) => exists l, assoc lbls x = Some l /\
         (nth_error (un cur') t = Some (ICall l) \/ nth_error (un cur') t = Some (IJump l) /\ tailp (un cur') (S t))
       | o => nth_error (un cur') t = o end)).
    { intros Hx Hr. destruct (IH _ _ _ _ Hr ltac:(lia) Hn) as (I1 & I2 & I3 & I4). split; [exact I1|]. split; [exact I2|]. split.
      - intros t Ht. apply I3. lia.
      - intros t Ht. destruct (Nat.eq_dec t i) as [->|Hti]; [|apply I4; lia].
        rewrite I3 by lia. rewrite un_nth. destruct (nth_error cur i) as [ins|]; [|reflexivity]. cbn [option_map].
        destruct ins; try reflexivity. destruct (Hx _ eq_refl). }
    destruct (nth_error cur i) as [ins|] eqn:Ei; [|apply SAME; [discriminate|exact H]].
    destruct ins; try (apply SAME; [discriminate|exact H]).
    destruct (assoc lbls name) as [l|] eqn:Ea; [|discriminate].
    specialize (fun j => Hskip j ltac:(discriminate) ltac:(discriminate)).
    assert (CALL : forall c1, resolve_loop n (S i) lbls (upd i (ICall l) c1) = inr cur' -> c1 = cur ->
      nopj (upd i (ICall l) cur)).
    { intros c1 _ _ j Hj. rewrite upd_nth in Hj. destruct (Nat.eqb_spec i j) as [->|Hij].
      - destruct (Nat.ltb_spec j (List.length cur)); [discriminate|lia].
      - cbn [andb] in Hj. destruct (Hn _ Hj) as (k & l' & -> & Hk). exists k, l'. split; [reflexivity|]. rewrite upd_nth.
        destruct (Nat.eqb_spec i k) as [->|]; [congruence|exact Hk]. }
    destruct (next_insn (skipn (S i) cur)) as [nx|] eqn:En.
    + destruct nx; try (eapply STEP; [reflexivity|exact Ea|exact H|apply upd_len|eapply CALL; [exact H|reflexivity]|rewrite un_upd; reflexivity|left; reflexivity]).
      destruct (next_return _ Hskip En) as (v & Hv1 & Hv2). rewrite nth_skipn in Hv1.
      assert (Htail : tailp (upd i (IJump l) (un cur)) (S i)).
      { exists (S i + v). split; [lia|]. split.
        - rewrite upd_nth. destruct (Nat.eqb_spec i (S i + v)); [lia|]. cbn [andb]. rewrite un_nth, Hv1. reflexivity.
        - intros z Hz. destruct (Hv2 (z - S i) ltac:(lia)) as (l' & E). rewrite nth_skipn in E. replace (S i + (z - S i)) with z in E by lia.
          exists l'. rewrite upd_nth. destruct (Nat.eqb_spec i z); [lia|]. cbn [andb]. rewrite un_nth, E. reflexivity. }
      assert (Hno : nopj (upd i (IJump l) cur)).
      { intros j Hj. rewrite upd_nth in Hj. destruct (Nat.eqb_spec i j) as [->|Hij].
        - destruct (Nat.ltb_spec j (List.length cur)); [discriminate|lia].
        - cbn [andb] in Hj. destruct (Hn _ Hj) as (k & l' & -> & Hk). exists k, l'. split; [reflexivity|]. rewrite upd_nth.
          destruct (Nat.eqb_spec i k) as [->|]; [congruence|exact Hk]. }
      destruct (next_insn_label (skipn (S i) cur)) as [[ret|] [|]] eqn:El;
        try (eapply STEP; [reflexivity|exact Ea|exact H|apply upd_len|exact Hno|rewrite un_upd; reflexivity|right; split; [reflexivity|rewrite un_upd; exact Htail]]).
      unfold next_insn_label in El. pose proof (next_label0 _ _ _ _ Hskip El) as ->. rewrite Nat.add_0_r in H.
      assert (Hret : nth_error cur (S i) = Some IReturn).
      { destruct v as [|v]; [rewrite Nat.add_0_r in Hv1; exact Hv1|]. exfalso. destruct (Hv2 0 ltac:(lia)) as (l' & E). 
        destruct (skipn (S i) cur) as [|a c2]; [discriminate|]. injection E as ->. cbn [next_insn_label_aux] in El.
        apply (had_label _ _ _ El). }
      assert (Hu : un (upd i (IJump l) (upd (S i) INop cur)) = upd i (IJump l) (un cur)).
      { rewrite un_upd, un_upd. cbn [unnop]. f_equal. apply upd_id. rewrite un_nth, Hret. reflexivity. }
      eapply STEP; [reflexivity|exact Ea|exact H|rewrite !upd_len; reflexivity| |exact Hu|right; split; [reflexivity|rewrite Hu; exact Htail]].
      intros j Hj. rewrite upd_nth, upd_len in Hj. destruct (Nat.eqb_spec i j) as [->|Hij].
      { destruct (Nat.ltb_spec j (List.length cur)); [discriminate|lia]. }
      cbn [andb] in Hj. destruct (Nat.eq_dec j (S i)) as [->|Hj2].
      { exists i, l. split; [reflexivity|]. rewrite upd_nth, Nat.eqb_refl, upd_len. apply Nat.ltb_lt in Hi. rewrite Hi. reflexivity. }
      rewrite upd_nth in Hj. destruct (Nat.eqb_spec (S i) j); [lia|]. cbn [andb] in Hj.
      destruct (Hn _ Hj) as (k & l' & -> & Hk). exists k, l'. split; [reflexivity|]. rewrite upd_nth.
      destruct (Nat.eqb_spec i k) as [->|]; [congruence|]. cbn [andb]. rewrite upd_nth.
      destruct (Nat.eqb_spec (S i) k) as [<-|]; [congruence|exact Hk].
    + eapply STEP; [reflexivity|exact Ea|exact H|apply upd_len|eapply CALL; [exact H|reflexivity]|rewrite un_upd; reflexivity|left; reflexivity].
Qed.

Lemma resolve_ok : forall lbls code code', resolve lbls code = inr code' -> nopj code ->
  nopj code' /\ resolved lbls (un code) (un code').
Proof.
  intros lbls code code' H Hn. destruct (resolve_loop_ok _ _ _ _ _ H eq_refl Hn) as (H1 & H2 & _ & H4).
  split; [exact H1|]. split; [rewrite !un_len; congruence|]. intro t. apply H4. lia.
Qed.
Lemma resolved_lc : forall lbls a b, resolved lbls a b -> forall x, lc b x = lc a x.
Proof.
  intros lbls a b [Hl H] x. symmetry. apply lc_same; [exact Hl|]. intros t l. specialize (H t). destruct (nth_error a t) as [i|].
  - destruct i; rewrite ?H; try tauto. destruct H as (l' & _ & [E|[E _]]); rewrite E; split; discriminate.
  - rewrite H. tauto.
Qed.
Lemma resolved_open : forall lbls a b x, resolved lbls a b -> ~ In (IOpenCall x) b.
Proof.
  intros lbls a b x [Hl H] Hin. apply In_nth_error in Hin. destruct Hin as (t & Ht). specialize (H t). destruct (nth_error a t) as [i|].
  - destruct i; try congruence. destruct H as (l' & _ & [E|[E _]]); congruence.
  - congruence.
Qed.
Lemma resolved_any : forall lbls a b, resolved lbls a b -> any1 a -> any1 b.
Proof.
  intros lbls a b [Hl H] Ha i Hin. apply In_nth_error in Hin. destruct Hin as (t & Ht). specialize (H t). destruct (nth_error a t) as [j|] eqn:Ea.
  - assert (D : nth_error b t = Some j \/ (exists l, nth_error b t = Some (ICall l)) \/ exists l, nth_error b t = Some (IJump l)).
    { destruct j; auto. destruct H as (l' & _ & [E|[E _]]); eauto. }
    destruct D as [D|[(l & D)|(l & D)]]; rewrite D in Ht; injection Ht as <-; try exact I. apply Ha. eapply nth_error_In. exact Ea.
  - congruence.
Qed.
Lemma any1_un : forall c, any1 (un c) <-> any1 c.
Proof.
  intro c. split; intros H i Hi.
  - specialize (H (unnop i)). destruct i; try exact I; apply H; unfold un; apply in_map_iff; eexists; (split; [|exact Hi]); reflexivity.
  - unfold un in Hi. apply in_map_iff in Hi. destruct Hi as (j & <- & Hj). apply H in Hj. destruct j; exact Hj.
Qed.
Lemma un_in : forall c i, i <> IReturn -> i <> INop -> In i (un c) <-> In i c.
Proof.
  intros c i H1 H2. unfold un. rewrite in_map_iff. split.
  - intros (j & E & Hj). destruct j; simpl in E; subst i; try exact Hj. congruence.
  - intro H. exists i. split; [destruct i; try reflexivity; congruence|exact H].
Qed.

Lemma NoDup_app_intro : forall {A} (a b : list A), NoDup a -> NoDup b -> (forall x, In x a -> ~ In x b) -> NoDup (a ++ b).
Proof.
  induction a as [|x a IH]; intros b Ha Hb Hd; [exact Hb|]. inversion Ha; subst. simpl. constructor.
  - rewrite in_app_iff. intros [H|H]; [contradiction|]. apply (Hd x); [left; reflexivity|exact H].
  - apply IH; [assumption|exact Hb|]. intros y Hy. apply Hd. right. exact Hy.
Qed.
Lemma un_cons : forall i c, un (i :: c) = unnop i :: un c. Proof. reflexivity. Qed.
Lemma un_nil : un [] = []. Proof. reflexivity. Qed.

Lemma un_out : forall c i, In i (un c) -> i <> IReturn -> i <> INop -> In i c.
Proof. intros. apply un_in; assumption. Qed.
Lemma in_un : forall c i, In i c -> i <> IReturn -> i <> INop -> In i (un c).
Proof. intros. apply un_in; assumption. Qed.
Lemma nodup_assoc : forall {A} (l : list (string * A)) k v, NoDup (map fst l) -> In (k, v) l -> assoc l k = Some v.
Proof.
  induction l as [|[k' v'] l IH]; intros k v Hn H; [destruct H|]. inversion Hn; subst. simpl. destruct (String.eqb_spec k' k) as [->|Hk].
  - destruct H as [H|H]; [congruence|]. exfalso. apply H2. apply (in_map fst) in H. exact H.
  - destruct H as [H|H]; [congruence|]. apply IH; assumption.
Qed.

End Shape.
Arguments sh_nop {W} c l _.
Arguments sh_any {W} c l _.
Arguments sh_open {W} c l _.
Arguments shape_sub {W} c l l' _ _.
Arguments shape_split {W} a b l _ _.
Arguments resolved_any {W} lbls a b _ _.
Arguments cap_prefix_ok {W} c i back _ _.

(* ---------- the main lemma ---------- *)
Section Emit.
Variable W : Prop.
Variable thr : nat.
Variable s : list byte.
Variable CS : Type.
Variable check : nat -> CS -> list byte -> list byte -> nat -> Z -> Z -> CS * option nat.
Variable MOK : Z -> env -> pattern -> Prop.
Hypothesis MOK_same : forall id E q E' q', same_all E q E' q' -> MOK id E q -> MOK id E' q'.
Notation pok := (pok W MOK).
Notation shape := (shape W).
Notation compile_f := (compile_f thr).

Definition tent : Type := Z * env * pattern.
Definition tin (Tl : list tent) (m : Z) (E : env) (q : pattern) : Prop := In (m, E, q) Tl.
Definition tid (t : tent) : Z := fst (fst t).
Record fresh (st st' : cstate) (Tl : list tent) : Prop := Fresh
  { f_uniq : cs_uniq st <= cs_uniq st';
    f_memo : (cs_memo st <= cs_memo st')%Z;
    f_nodup : NoDup (map tid Tl);
    f_range : forall t, In t Tl -> (cs_memo st < tid t <= cs_memo st')%Z;
    f_mok : forall m E q, In (m, E, q) Tl -> exists id, MOK id E q }.
Notation CGT Tl := (CG thr MOK (tin Tl)).

Definition good (st st' : cstate) (E : env) (p : pattern) (c : program) : Prop :=
  exists Tl, fresh st st' Tl /\ CGT Tl E p (un c) /\ lab (cs_uniq st) (cs_uniq st') c /\ hdok c /\ shape c (call_nts p).

Lemma fresh_refl : forall st, fresh st st [].
Proof. intro st. split; try lia; [constructor|intros t []|intros m E q []]. Qed.
Lemma fresh_app : forall a b c T1 T2, fresh a b T1 -> fresh b c T2 -> fresh a c (T1 ++ T2).
Proof.
  intros a b c T1 T2 [A1 A2 A3 A4 A5] [B1 B2 B3 B4 B5]. split; try lia.
  - rewrite map_app. apply NoDup_app_intro; [exact A3|exact B3|]. intros m H1 H2. apply in_map_iff in H1. apply in_map_iff in H2.
    destruct H1 as (t1 & <- & H1). destruct H2 as (t2 & E2 & H2). specialize (A4 _ H1). specialize (B4 _ H2). lia.
  - intros t H. apply in_app_or in H. destruct H as [H|H]; [specialize (A4 _ H)|specialize (B4 _ H)]; lia.
  - intros m E q H. apply in_app_or in H. destruct H; eauto.
Qed.
Lemma fresh_new : forall a b T u, fresh a b T -> cs_uniq b <= u -> fresh a (CState u (cs_memo b)) T.
Proof. intros a b T u [A1 A2 A3 A4 A5] H. split; cbn [cs_uniq cs_memo]; auto. lia. Qed.
Lemma fresh_tree : forall a b T E q id, fresh a b T -> MOK id E q -> fresh a (CState (cs_uniq b) (cs_memo b + 1)) (T ++ [((cs_memo b + 1)%Z, E, q)]).
Proof.
  intros a b T E q id Hf H. apply (fresh_app a b); [exact Hf|]. split; cbn [cs_uniq cs_memo map tid fst]; try lia.
  - constructor; [intros []|constructor].
  - intros t [<-|[]]. cbn. lia.
  - intros m E' q' [E1|[]]. injection E1 as <- <- <-. eauto.
Qed.
Lemma CGT_l : forall T1 T2 E p c, CGT T1 E p c -> CGT (T1 ++ T2) E p c.
Proof. intros T1 T2 E p c. apply CG_mono; [auto|]. intros m E' q H. apply in_or_app. left. exact H. Qed.
Lemma CGT_r : forall T1 T2 E p c, CGT T2 E p c -> CGT (T1 ++ T2) E p c.
Proof. intros T1 T2 E p c. apply CG_mono; [auto|]. intros m E' q H. apply in_or_app. right. exact H. Qed.

Lemma good_get : forall st st' E p c, good st st' E (get p) c -> good st st' E p c.
Proof.
  intros st st' E p c (Tl & H1 & H2 & H3 & H4 & H5). exists Tl. split; [exact H1|]. split; [apply cg_get; exact H2|]. split; [exact H3|]. split; [exact H4|].
  eapply shape_sub; [|exact H5]. intro x. apply call_get.
Qed.

Ltac labs := let x := fresh "x" in intro x;
  repeat match goal with H : lab _ _ _ |- _ => specialize (H x) end; cbn [cs_uniq cs_memo new_label] in *;
  repeat rewrite ?lc_app; cbn [lc]; repeat rewrite ?lc_app; cbn [lc];
  repeat match goal with |- context [?a =? x] => destruct (Nat.eqb_spec a x) end; lia.
Ltac uns := repeat rewrite ?un_app, ?un_cons, ?un_nil; cbn [unnop].
Ltac shp := repeat first [assumption | apply shape_nil | apply shape_app | (apply shape_cons; [reflexivity|]) ].

Lemma cbind_ok : forall r k c st, cbind r k = COk c st -> exists c' st', r = COk c' st' /\ k c' st' = COk c st.
Proof. intros [c' st'| | |] k c st H; try discriminate. eauto. Qed.

Lemma emit_alt : forall E l r cl cr st st1 st2, good st st1 E (get l) cl -> good st1 st2 E (get r) cr ->
  good st (CState (S (S (cs_uniq st2))) (cs_memo st2)) E (PAlt l r) (alt_code cl cr (S (cs_uniq st2)) (S (S (cs_uniq st2)))).
Proof.
  intros E l r cl cr st st1 st2 HL HR. apply good_get in HL. apply good_get in HR.
  destruct HL as (T1 & F1 & C1 & B1 & D1 & S1). destruct HR as (T2 & F2 & C2 & B2 & D2 & S2).
  pose proof (fresh_app _ _ _ _ _ F1 F2) as F3. apply (fresh_new _ _ _ (S (S (cs_uniq st2)))) in F3; [|lia].
  pose proof (f_uniq _ _ _ F1) as U1. pose proof (f_uniq _ _ _ F2) as U2.
  apply (CGT_l T1 T2) in C1. apply (CGT_r T1 T2) in C2.
  assert (S1' : shape cl (call_nts (PAlt l r))) by (eapply shape_sub; [|exact S1]; intros; apply in_or_app; auto).
  assert (S2' : shape cr (call_nts (PAlt l r))) by (eapply shape_sub; [|exact S2]; intros; apply in_or_app; auto).
  exists (T1 ++ T2). split; [exact F3|].
  assert (PLAIN : CGT (T1 ++ T2) E (PAlt l r) (un (IChoice (S (cs_uniq st2)) :: cl ++ [ICommit (S (S (cs_uniq st2))); ILabel (S (cs_uniq st2))] ++ cr ++ [ILabel (S (S (cs_uniq st2)))])) /\
     lab (cs_uniq st) (S (S (cs_uniq st2))) (IChoice (S (cs_uniq st2)) :: cl ++ [ICommit (S (S (cs_uniq st2))); ILabel (S (cs_uniq st2))] ++ cr ++ [ILabel (S (S (cs_uniq st2)))]) /\
     hdok (IChoice (S (cs_uniq st2)) :: cl ++ [ICommit (S (S (cs_uniq st2))); ILabel (S (cs_uniq st2))] ++ cr ++ [ILabel (S (S (cs_uniq st2)))]) /\
     shape (IChoice (S (cs_uniq st2)) :: cl ++ [ICommit (S (S (cs_uniq st2))); ILabel (S (cs_uniq st2))] ++ cr ++ [ILabel (S (S (cs_uniq st2)))]) (call_nts (PAlt l r))).
  { split; [uns; apply cg_alt; assumption|]. split; [labs|]. split; [apply hdok_cons; discriminate|]. shp. }
  unfold alt_code. destruct (alt_test cl cr (S (cs_uniq st2))) as [t|] eqn:Et; [|exact PLAIN]. clear PLAIN.
  assert (Hd : exists h g, next_insn cl = Some h /\ next_insn cr = Some g /\ test_of h (S (cs_uniq st2)) = Some t /\ is_test_head h = true /\ is_test_head g = true /\
     (forall b, cmatch h b = true -> cmatch g b = false)).
  { unfold alt_test in Et. destruct (next_insn cl) as [h|]; [|discriminate]. destruct (next_insn cr) as [g|]; [|destruct h; discriminate].
    exists h, g. split; [reflexivity|]. split; [reflexivity|]. destruct h; try discriminate; destruct g; try discriminate.
    - destruct (byte_eqb b b0) eqn:Eb; [discriminate|]. repeat split; try exact Et. intros c Hc. cbn [cmatch] in *. apply byte_eqb_eq in Hc. subst c.
      destruct (byte_eqb b0 b) eqn:Eb2; [|reflexivity]. apply byte_eqb_eq in Eb2. subst b0. rewrite byte_eqb_refl in Eb. discriminate.
    - destruct (cs_has s0 b) eqn:Eb; [discriminate|]. repeat split; try exact Et. intros c Hc. cbn [cmatch] in *. apply byte_eqb_eq in Hc. subst c. exact Eb.
    - destruct (cs_has s0 b) eqn:Eb; [discriminate|]. repeat split; try exact Et. intros c Hc. cbn [cmatch] in *.
      destruct (byte_eqb b c) eqn:Eb2; [|reflexivity]. apply byte_eqb_eq in Eb2. subst c. congruence. }
  destruct Hd as (h & g & N1 & N2 & Ht & Hh & Hg & Hdis).
  destruct (next_head _ _ (sh_nop _ _ S1) D1 N1 Hh) as (cl' & ->). destruct (next_head _ _ (sh_nop _ _ S2) D2 N2 Hg) as (cr' & ->). cbn [tl].
  assert (Hu : unnop h = h /\ unnop g = g /\ unnop t = t /\ simple t = true /\ (forall l, t <> ILabel l) /\ (forall l, h <> IJump l) /\ (forall x, lc (h :: cl') x = lc cl' x)).
  { destruct h; try discriminate; injection Ht as <-; destruct g; try discriminate; repeat split; discriminate. }
  destruct Hu as (U3 & U4 & U5 & U6 & U7 & U8 & U9).
  rewrite un_cons, U3 in C1. rewrite un_cons, U4 in C2.
  split; [uns; rewrite U4, U5; eapply cg_alt_test; eassumption|]. split; [|split; [apply hdok_cons; exact U7|]].
  - intro x. specialize (B1 x). specialize (B2 x). rewrite U9 in B1. rewrite (lc_nl t) by exact U7. cbn [cs_uniq].
    rewrite !lc_app. set (y := lc (g :: cr') x) in *. clearbody y. cbn [lc]. destruct (Nat.eqb_spec (S (cs_uniq st2)) x), (Nat.eqb_spec (S (S (cs_uniq st2))) x); lia.
  - apply shape_cons; [exact U6|]. apply shape_tl in S1'; [|exact U8]. shp.
Qed.

(** the loop over the definitions of a grammar *)
Section Loop.
Variable fuel : nat.
Variable start : string.
Variable used : list string.
Fixpoint gloop (ds : list (string * pattern)) (st : cstate) (code : program) (lbls : list (string * nat)) {struct ds} : cres * list (string * nat) :=
  match ds with
  | [] => (COk code st, lbls)
  | (k, v) :: ds =>
      if negb (String.eqb k start) && negb (str_mem k used) then gloop ds st code lbls
      else
        let (lbl, st) := new_label st in
        match compile_f fuel v st with
        | COk fn st => gloop ds st (code ++ [ILabel lbl] ++ fn ++ [IReturn]) (lbls ++ [(k, lbl)])
        | r => (r, lbls)
        end
  end.
End Loop.
Lemma compile_grammar : forall fuel defs0 start st, compile_f (S fuel) (PGrammar defs0 start) st =
  let defs := inline_all thr defs0 in
  match used_names defs with
  | [] => match assoc defs start with Some q => compile_f fuel q st | None => CNilPanic end
  | _ =>
      match gloop fuel start (used_names defs) defs (CState (S (cs_uniq st)) (cs_memo st)) [IOpenCall start; IJump (S (cs_uniq st))] [] with
      | (COk code st', lbls) => match resolve lbls code with inl x => CNotFound x | inr code => COk (code ++ [ILabel (S (cs_uniq st))]) st' end
      | (r, _) => r
      end
  end.
Proof. intros. cbn [Model_Pattern.compile_f]. cbv zeta. destruct (used_names (inline_all thr defs0)); reflexivity. Qed.

Definition unb (b : block) : block := Block (b_name b) (b_lbl b) (b_patt b) (un (b_code b)).
Lemma blk_unb : forall b, blk (unb b) = un (blk b). Proof. intros [n l p c]. unfold blk, unb. cbn. uns. reflexivity. Qed.
Lemma blks_unb : forall bs, List.concat (map blk (map unb bs)) = un (List.concat (map blk bs)).
Proof. induction bs as [|b bs IH]; [reflexivity|]. cbn [map List.concat]. rewrite un_app, blk_unb, IH. reflexivity. Qed.
Lemma lbls_unb : forall bs, blk_lbls (map unb bs) = blk_lbls bs.
Proof. intro bs. unfold blk_lbls. rewrite map_map. reflexivity. Qed.

Lemma gloop_ok : forall fuel start used E',
  (forall E p st c st', compile_f fuel p st = COk c st' -> pok E p -> good st st' E p c) ->
  forall ds st code lbls code' st' lbls', gloop fuel start used ds st code lbls = (COk code' st', lbls') ->
  Forall (fun kq => pok E' (snd kq)) ds ->
  exists bs Tl, code' = code ++ List.concat (map blk bs) /\ lbls' = lbls ++ blk_lbls bs /\ fresh st st' Tl /\
    lab (cs_uniq st) (cs_uniq st') (List.concat (map blk bs)) /\
    (forall b, In b bs -> In (b_name b, b_patt b) ds /\ CGT Tl E' (b_patt b) (un (b_code b))) /\
    (exists l, shape (List.concat (map blk bs)) l).
Proof.
  intros fuel start used E' IH. induction ds as [|[k v] ds IHd]; intros st code lbls code' st' lbls' H Hp.
  - injection H as <- <- <-. exists [], []. cbn. rewrite !app_nil_r. split; [reflexivity|]. split; [reflexivity|]. split; [apply fresh_refl|].
    split; [intro x; cbn; lia|]. split; [intros b []|]. exists []. apply shape_nil.
  - inversion Hp; subst. cbn [snd] in *. cbn [gloop] in H. destruct (negb (String.eqb k start) && negb (str_mem k used)).
    + destruct (IHd _ _ _ _ _ _ H H3) as (bs & Tl & I1 & I2 & I3 & I4 & I5 & I6). exists bs, Tl. repeat (split; [assumption|]). split; [|exact I6].
      intros b Hb. destruct (I5 b Hb). split; [right|]; assumption.
    + unfold new_label in H. destruct (compile_f fuel v (CState (S (cs_uniq st)) (cs_memo st))) as [fn st1| | |] eqn:Ec; try discriminate.
      destruct (IH _ _ _ _ _ Ec H2) as (T1 & F1 & C1 & B1 & _ & S1).
      destruct (IHd _ _ _ _ _ _ H H3) as (bs & T2 & I1 & I2 & I3 & I4 & I5 & (l6 & I6)).
      exists (Block k (S (cs_uniq st)) v fn :: bs), (T1 ++ T2). cbn [map List.concat].
      split; [rewrite I1; unfold blk at 2; cbn [b_lbl b_code app]; rewrite <- !app_assoc; cbn [app]; rewrite <- !app_assoc; reflexivity|]. split; [rewrite I2, <- app_assoc; reflexivity|].
      split; [eapply fresh_app; [|exact I3]; destruct F1; split; cbn [cs_uniq cs_memo] in *; auto; lia|]. split; [|split].
      * pose proof (f_uniq _ _ _ F1) as U1. pose proof (f_uniq _ _ _ I3) as U2. unfold blk at 1. cbn [b_lbl b_code]. labs.
      * intros b [<-|Hb]; cbn [b_name b_patt b_code].
        -- split; [left; reflexivity|]. apply CGT_l. exact C1.
        -- destruct (I5 b Hb). split; [right; assumption|]. apply CGT_r. assumption.
      * exists (call_nts v ++ l6). unfold blk at 1. cbn [b_lbl b_code]. apply shape_app.
        -- apply (shape_sub _ _ (call_nts v ++ l6)) in S1; [|intros; apply in_or_app; auto]. shp.
        -- eapply shape_sub; [|exact I6]. intros; apply in_or_app; auto.
Qed.

Lemma emit_cap : forall E q id sub st st1, good st st1 E (get q) sub -> good st st1 E (PCap q id) (cap_code sub id).
Proof.
  intros E q id sub st st1 H. apply good_get in H. destruct H as (T1 & F1 & C1 & B1 & D1 & S1). exists T1. split; [exact F1|].
  unfold cap_code. destruct (cap_prefix sub) as [i back] eqn:Ec. destruct (cap_prefix_ok _ _ _ (sh_any _ _ S1) Ec) as (P1 & Eback & P3).
  change (call_nts (PCap q id)) with (call_nts q).
  destruct ((i =? 0) || (256 <=? back)%N) eqn:Ei.
  - split; [uns; apply cg_cap_begin; exact C1|]. split; [labs|]. split; [apply hdok_cons; discriminate|]. shp.
  - apply orb_false_iff in Ei. destruct Ei as [Ei Eb]. apply Nat.eqb_neq in Ei. apply N.leb_gt in Eb. subst back.
    assert (Hun : forall c, forallb charlike c = true -> un c = c).
    { induction c as [|x c IHc]; intro Hc; [reflexivity|]. cbn [forallb] in Hc. apply andb_true_iff in Hc. destruct Hc as [Hx Hc]. rewrite un_cons, IHc by exact Hc.
      destruct x; try discriminate; reflexivity. }
    destruct (Nat.eqb_spec i (List.length sub)) as [->|Hi].
    + rewrite firstn_all in *. split; [|split; [labs|split]].
      * uns. rewrite (Hun _ P1) in *. apply cg_cap_full; try assumption; [lia|]. intros ->. apply Ei. reflexivity.
      * intros l Hl. destruct sub as [|a sub]; [destruct Ei; reflexivity|]. injection Hl as ->. cbn in P1. discriminate.
      * shp.
    + rewrite <- (firstn_skipn i sub) in C1, S1, B1. rewrite un_app in C1. rewrite (Hun _ P1) in C1.
      destruct (shape_split _ _ _ P1 S1) as [S2 S3].
      assert (Hlen : List.length (firstn i sub) = i) by (rewrite firstn_length; lia).
      split; [|split; [|split]].
      * uns. rewrite (Hun _ P1). apply cg_cap_late; try assumption; [lia|]. intro E0. rewrite E0 in Hlen. cbn in Hlen. lia.
      * intro x. specialize (B1 x). rewrite !lc_app in *. cbn [lc]. lia.
      * intros l Hl. destruct (firstn i sub) as [|a sub']; [cbn in Hlen; lia|]. injection Hl as ->. cbn in P1. discriminate.
      * shp.
Qed.

Lemma shape_one : forall i l, simple i = true -> shape [i] l.
Proof. intros. apply shape_cons; [assumption|apply shape_nil]. Qed.
Lemma good0 : forall st E p c, CGT [] E p (un c) -> (forall x, lc c x = 0) -> hdok c -> shape c (call_nts p) -> good st st E p c.
Proof.
  intros st E p c H1 H2 H3 H4. exists []. split; [apply fresh_refl|]. split; [exact H1|]. split; [|split; assumption]. intro x. rewrite H2. lia.
Qed.

Theorem emit : forall fuel E p st c st', compile_f fuel p st = COk c st' -> pok E p -> good st st' E p c.
Proof.
  induction fuel as [|fuel IH]; intros E p st c st' H Hp; [discriminate|].
  assert (SUB : forall E q st c st', compile_f fuel (get q) st = COk c st' -> pok E q -> good st st' E q c).
  { intros. apply good_get. eapply IH; [eassumption|]. apply pok_get. assumption. }
  destruct p.
  - (* alternative *)
    destruct Hp as [Hl Hr]. cbn [Model_Pattern.compile_f] in H. destruct (combine (get p1) (get p2)) as [set|] eqn:Ec.
    + injection H as <- <-. apply good0; [apply cg_alt_set; exact Ec|reflexivity|apply hdok_cons; discriminate|apply shape_one; reflexivity].
    + apply cbind_ok in H. destruct H as (cl & st1 & H1 & H). apply cbind_ok in H. destruct H as (cr & st2 & H2 & H).
      unfold new_label in H. cbn [cs_uniq cs_memo] in H. injection H as <- <-.
      eapply emit_alt; [eapply IH; [exact H1|apply pok_get; assumption]|eapply IH; [exact H2|apply pok_get; assumption]].
  - (* sequence *)
    destruct Hp as [Hl Hr]. cbn [Model_Pattern.compile_f] in H.
    apply cbind_ok in H. destruct H as (cl & st1 & H1 & H). apply cbind_ok in H. destruct H as (cr & st2 & H2 & H). injection H as <- <-.
    destruct (SUB _ _ _ _ _ H1 Hl) as (T1 & F1 & C1 & B1 & D1 & S1). destruct (SUB _ _ _ _ _ H2 Hr) as (T2 & F2 & C2 & B2 & D2 & S2).
    pose proof (f_uniq _ _ _ F1) as U1. pose proof (f_uniq _ _ _ F2) as U2.
    exists (T1 ++ T2). split; [eapply fresh_app; eassumption|]. split; [uns; apply cg_seq; [apply CGT_l|apply CGT_r]; assumption|].
    split; [labs|]. split; [apply hdok_app; assumption|].
    cbn [call_nts]. apply shape_app; [eapply shape_sub; [|exact S1]|eapply shape_sub; [|exact S2]]; intros; apply in_or_app; auto.
  - (* star *)
    cbn [Model_Pattern.compile_f] in H.
    assert (DEF : (forall q' id, get p <> PMemo q' id) -> cbind (compile_f fuel (get p) st) (fun sub st => COk ([IChoice (S (S (cs_uniq st))); ILabel (S (cs_uniq st))] ++ sub ++ [IPartialCommit (S (cs_uniq st)); ILabel (S (S (cs_uniq st)))])
                     (CState (S (S (cs_uniq st))) (cs_memo st))) = COk c st' -> good st st' E (PStar p) c).
    { intros NM HH. apply cbind_ok in HH. destruct HH as (sub & st1 & H1 & HH). injection HH as <- <-.
      destruct (SUB _ _ _ _ _ H1 Hp) as (T1 & F1 & C1 & B1 & D1 & S1). pose proof (f_uniq _ _ _ F1) as U1.
      exists T1. split; [apply fresh_new; [exact F1|lia]|]. split; [uns; apply cg_star; [exact NM|exact C1]|]. split; [labs|]. split; [apply hdok_cons; discriminate|].
      change (call_nts (PStar p)) with (call_nts p). shp. }
    destruct (get p) eqn:Eg; try (apply DEF; [discriminate|exact H]).
    + (* memo tree *)
      clear DEF. assert (Hm : pok E (PMemo p0 id)) by (rewrite <- Eg; apply pok_get; exact Hp). destruct Hm as [Hm Hq].
      apply cbind_ok in H. destruct H as (sub & st1 & H1 & H). unfold new_label in H. cbn [cs_uniq cs_memo] in H. injection H as <- <-.
      destruct (SUB _ _ _ _ _ H1 Hq) as (T1 & F1 & C1 & B1 & D1 & S1). pose proof (f_uniq _ _ _ F1) as U1.
      exists (T1 ++ [((cs_memo st1 + 1)%Z, E, p0)]). split; [|split; [|split; [|split]]].
      * apply (fresh_tree _ (CState (S (S (S (S (cs_uniq st1))))) (cs_memo st1)) T1 E p0 id); [apply fresh_new; [exact F1|lia]|exact Hm].
      * uns. eapply (cg_star_tree _ _ _ E p p0 id (un sub)); [exact Eg|apply CGT_l; exact C1|]. apply in_or_app. right. left. reflexivity.
      * labs.
      * intros l Hl. eexists _, _. reflexivity.
      * assert (S1' : shape sub (call_nts (PStar p))).
        { eapply shape_sub; [|exact S1]. intros x Hx. cbn [call_nts]. apply call_get. rewrite Eg. exact Hx. }
        shp.
    + (* set *)
      injection H as <- <-. apply good0; [apply cg_star_span; exact Eg|reflexivity|apply hdok_cons; discriminate|apply shape_one; reflexivity].
  - (* plus *)
    cbn [Model_Pattern.compile_f] in H. apply cbind_ok in H. destruct H as (star & st1 & H1 & H). apply cbind_ok in H. destruct H as (sub & st2 & H2 & H). injection H as <- <-.
    assert (Hg : pok E (PStar (get p))) by (apply (pok_get _ _ E p); exact Hp).
    destruct (IH _ _ _ _ _ H1 Hg) as (T1 & F1 & C1 & B1 & D1 & S1). destruct (SUB _ _ _ _ _ H2 Hp) as (T2 & F2 & C2 & B2 & D2 & S2).
    pose proof (f_uniq _ _ _ F1) as U1. pose proof (f_uniq _ _ _ F2) as U2.
    exists (T1 ++ T2). split; [eapply fresh_app; eassumption|]. split; [uns; apply cg_plus; [apply CGT_l|apply CGT_r]; assumption|].
    split; [labs|]. split; [apply hdok_app; assumption|].
    cbn [call_nts] in *. apply shape_app; [exact S2|]. eapply shape_sub; [|exact S1]. intro x. apply call_get.
  - (* optional *)
    cbn [Model_Pattern.compile_f] in H.
    assert (DEF : compile_f fuel (PAlt (get p) PEmpty) st = COk c st' -> good st st' E (POpt p) c).
    { intro HH. assert (Hg : pok E (PAlt (get p) PEmpty)) by (split; [apply pok_get; exact Hp|exact I]).
      destruct (IH _ _ _ _ _ HH Hg) as (T1 & F1 & C1 & B1 & D1 & S1). exists T1. split; [exact F1|]. split; [apply cg_opt; exact C1|].
      split; [exact B1|]. split; [exact D1|]. eapply shape_sub; [|exact S1]. intros x Hx. cbn [call_nts] in *. rewrite app_nil_r in Hx. apply call_get. exact Hx. }
    destruct (get p) eqn:Eg; try (apply DEF; exact H).
    + injection H as <- <-. exists []. split; [apply fresh_new; [apply fresh_refl|lia]|]. split; [apply cg_opt_set; exact Eg|]. split; [labs|]. split; [apply hdok_cons; discriminate|]. shp.
    + destruct str as [|b [|b2 str]]; try (apply DEF; exact H).
      injection H as <- <-. exists []. split; [apply fresh_new; [apply fresh_refl|lia]|]. split; [apply cg_opt_char; exact Eg|]. split; [labs|]. split; [apply hdok_cons; discriminate|]. shp.
  - (* not *)
    cbn [Model_Pattern.compile_f] in H. apply cbind_ok in H. destruct H as (sub & st1 & H1 & H). injection H as <- <-.
    destruct (SUB _ _ _ _ _ H1 Hp) as (T1 & F1 & C1 & B1 & D1 & S1). pose proof (f_uniq _ _ _ F1) as U1.
    exists T1. split; [apply fresh_new; [exact F1|lia]|]. split; [uns; apply cg_not; exact C1|]. split; [labs|]. split; [apply hdok_cons; discriminate|].
    change (call_nts (PNot p)) with (call_nts p). shp.
  - (* and *)
    cbn [Model_Pattern.compile_f] in H. apply cbind_ok in H. destruct H as (sub & st1 & H1 & H). injection H as <- <-.
    destruct (SUB _ _ _ _ _ H1 Hp) as (T1 & F1 & C1 & B1 & D1 & S1). pose proof (f_uniq _ _ _ F1) as U1.
    exists T1. split; [apply fresh_new; [exact F1|lia]|]. split; [uns; apply cg_and; exact C1|]. split; [labs|]. split; [apply hdok_cons; discriminate|].
    change (call_nts (PAnd p)) with (call_nts p). shp.
  - (* capture *)
    cbn [Model_Pattern.compile_f] in H. apply cbind_ok in H. destruct H as (sub & st1 & H1 & H). injection H as <- <-.
    apply emit_cap. eapply IH; [exact H1|]. apply pok_get. exact Hp.
  - (* memo *)
    destruct Hp as [Hm Hp]. cbn [Model_Pattern.compile_f] in H. unfold new_label in H. apply cbind_ok in H. destruct H as (sub & st1 & H1 & H). injection H as <- <-.
    destruct (SUB _ _ _ _ _ H1 Hp) as (T1 & F1 & C1 & B1 & D1 & S1). pose proof (f_uniq _ _ _ F1) as U1. cbn [cs_uniq] in *.
    exists T1. split; [destruct F1; split; cbn [cs_uniq cs_memo] in *; auto; lia|]. split; [uns; apply cg_memo; assumption|]. split; [labs|]. split; [apply hdok_cons; discriminate|].
    change (call_nts (PMemo p id)) with (call_nts p). shp.
  - (* check *)
    cbn [Model_Pattern.compile_f] in H. unfold new_label in H. apply cbind_ok in H. destruct H as (sub & st1 & H1 & H). injection H as <- <-.
    destruct (SUB _ _ _ _ _ H1 Hp) as (T1 & F1 & C1 & B1 & D1 & S1). pose proof (f_uniq _ _ _ F1) as U1. cbn [cs_uniq] in *.
    exists T1. split; [destruct F1; split; cbn [cs_uniq cs_memo] in *; auto; lia|]. split; [uns; apply cg_check; assumption|]. split; [labs|]. split; [apply hdok_cons; discriminate|].
    change (call_nts (PCheck p ck id flag)) with (call_nts p). shp.
  - (* grammar *)
    apply pok_grammar in Hp. pose proof Hp as Hp0. apply (gok_inline W thr MOK MOK_same) in Hp. destruct Hp as (G1 & G2 & G3). destruct Hp0 as (G0 & _ & _).
    rewrite compile_grammar in H. cbv zeta in H. set (D := inline_all thr defs) in *.
    destruct (used_names D) as [|u0 us] eqn:Eu.
    + destruct (assoc D start) as [b|] eqn:Ea; [|discriminate].
      assert (Hb : pok (D :: E) b) by (rewrite Forall_forall in G3; apply assoc_in in Ea; apply (G3 _ Ea)).
      destruct (IH _ _ _ _ _ H Hb) as (T1 & F1 & C1 & B1 & D1 & S1). 
      assert (Hno : forall x, ~ In x (call_nts b)).
      { intros x Hx. apply call_open in Hx. apply assoc_in in Ea. assert (Hi : In x (used_names D)) by (apply in_concat_map; exists (start, b); auto).
        rewrite Eu in Hi. exact Hi. }
      exists T1. split; [exact F1|]. split; [|split; [exact B1|split; [exact D1|]]].
      * eapply cg_grammar_leaf; [exact G0|exact Ea|exact C1|]. intros x Hx. apply un_out in Hx; [|discriminate|discriminate]. apply (sh_open _ _ S1) in Hx. exact (Hno _ Hx).
      * eapply shape_sub; [|exact S1]. intros x Hx. destruct (Hno _ Hx).
    + rewrite <- Eu in *. clear Eu.
      destruct (gloop fuel start (used_names D) D (CState (S (cs_uniq st)) (cs_memo st)) [IOpenCall start; IJump (S (cs_uniq st))] []) as [[code st1| | |] lbls] eqn:El; try discriminate.
      destruct (resolve lbls code) as [x|code'] eqn:Er; [discriminate|]. injection H as <- <-.
      destruct (gloop_ok _ _ _ (D :: E) IH _ _ _ _ _ _ _ El G3) as (bs & T1 & I1 & I2 & F1 & B1 & I5 & (l6 & S1)).
      assert (Hn : nopj code) by (rewrite I1; apply nopj_app; [apply nopj_cons; [discriminate|apply nopj_one; discriminate]|apply (sh_nop _ _ S1)]).
      destruct (resolve_ok _ _ _ Er Hn) as [Hn' Hr]. pose proof (f_uniq _ _ _ F1) as U1. cbn [cs_uniq] in *.
      exists T1. split; [destruct F1; split; cbn [cs_uniq cs_memo] in *; auto; lia|]. split; [|split; [|split]].
      * uns. apply (cg_grammar _ _ _ E defs start (S (cs_uniq st)) (map unb bs)); [exact G0| | |].
        -- intros b Hb. apply in_map_iff in Hb. destruct Hb as (b0 & <- & Hb). cbn [unb b_name b_patt]. destruct (I5 _ Hb) as [Hi _]. apply nodup_assoc; assumption.
        -- intros b Hb. apply in_map_iff in Hb. destruct Hb as (b0 & <- & Hb). cbn [unb b_patt b_code]. apply I5. exact Hb.
        -- rewrite lbls_unb, blks_unb. rewrite I1, I2 in Hr. exact Hr.
      * intro x. rewrite lc_app. rewrite <- lc_un, (resolved_lc _ _ _ Hr), lc_un, I1, lc_app. specialize (B1 x). cbn [lc]. destruct (Nat.eqb_spec (S (cs_uniq st)) x); lia.
      * destruct Hr as [_ Hr]. specialize (Hr 0). rewrite I1 in Hr. cbn in Hr. destruct Hr as (l & _ & Hr). intros l' Hl'. exfalso.
        destruct code' as [|a code']; [destruct Hr as [Hr|[Hr _]]; discriminate|]. injection Hl' as ->. cbn in Hr. destruct Hr as [Hr|[Hr _]]; discriminate.
      * apply shape_app; [|apply shape_one; reflexivity]. split; [exact Hn'| |].
        -- apply any1_un. apply (resolved_any _ _ _ Hr). apply any1_un. rewrite I1. intros i Hi. apply in_app_or in Hi.
           destruct Hi as [[<-|[<-|[]]]|Hi]; try exact I. apply (sh_any _ _ S1). exact Hi.
        -- intros x Hi. apply in_un in Hi; [|discriminate|discriminate]. destruct (resolved_open _ _ _ _ Hr Hi).
  - (* search *)
    destruct Hp as [Hp HS]. cbn [Model_Pattern.compile_f] in H. apply cbind_ok in H. destruct H as (sub & st1 & H1 & H).
    destruct (SUB _ _ _ _ _ H1 Hp) as (T1 & F1 & C1 & B1 & D1 & S1). 
    assert (Hg : pok E (search_grammar p (search_skip sub))) by (eapply pok_search; eassumption).
    destruct (IH _ _ _ _ _ H Hg) as (T2 & F2 & C2 & B2 & D2 & S2).
    pose proof (f_uniq _ _ _ F1) as U1. rewrite (skip_head _ (sh_nop _ _ S1) D1) in C2.
    exists (T1 ++ T2). split; [eapply fresh_app; eassumption|]. split; [eapply cg_search; [apply CGT_l; exact C1|exact HS|apply CGT_r; exact C2]|].
    split; [labs|]. split; [exact D2|]. exact S2.
  - injection H as <- <-. apply good0; [apply cg_class|reflexivity|apply hdok_cons; discriminate|apply shape_one; reflexivity].
  - injection H as <- <-. apply good0.
    + replace (un (map IChar str)) with (map IChar str); [apply cg_lit|]. unfold un. rewrite map_map. reflexivity.
    + intro x. clear. induction str as [|b str IHs]; [reflexivity|exact IHs].
    + destruct str; [intros l Hl; discriminate|apply hdok_cons; discriminate].
    + cbn [call_nts]. clear. induction str as [|b str IHs]; [apply shape_nil|apply shape_cons; [reflexivity|exact IHs]].
  - destruct inl as [q|].
    + cbn [Model_Pattern.compile_f] in H. destruct (IH _ _ _ _ _ H Hp) as (T1 & F1 & C1 & B1 & D1 & S1). exists T1. split; [exact F1|]. split; [apply cg_inl; exact C1|]. auto.
    + injection H as <- <-. apply good0; [apply cg_nt|reflexivity|apply hdok_cons; discriminate|].
      split; [apply nopj_one; discriminate|intros n [<-|[]]; exact I|intros x [Hx|[]]; injection Hx as <-; left; reflexivity].
  - cbn [Proof_Compile.pok] in Hp. injection H as <- <-. apply good0; [apply cg_dot; eapply dotok_pos; exact Hp|reflexivity|apply hdok_cons; discriminate|].
    split; [apply nopj_one; discriminate|intros n0 [<-|[]]; exact Hp|intros x [Hx|[]]; discriminate].
  - destruct recover as [q|].
    + cbn [Model_Pattern.compile_f] in H. apply cbind_ok in H. destruct H as (sub & st1 & H1 & H). injection H as <- <-.
      destruct (SUB _ _ _ _ _ H1 Hp) as (T1 & F1 & C1 & B1 & D1 & S1). exists T1. split; [exact F1|]. split; [uns; apply cg_err; exact C1|].
      split; [labs|]. split; [apply hdok_cons; discriminate|]. change (call_nts (PError msg (Some q))) with (call_nts q). shp.
    + injection H as <- <-. apply good0; [apply cg_err_none|reflexivity|apply hdok_cons; discriminate|]. shp.
  - injection H as <- <-. apply good0; [apply cg_emptyop|reflexivity|apply hdok_cons; discriminate|apply shape_one; reflexivity].
  - injection H as <- <-. apply good0; [apply cg_empty|reflexivity|intros l Hl; discriminate|apply shape_nil].
Qed.
End Emit.
