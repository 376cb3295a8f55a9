(** The tree table: what its entries say about the text. *)
From Coq Require Import ZArith.
From Verif Require Import Base Model_Charset Model_Isa Model_Capture Model_Input Spec_Input Model_Code Model_VM Model_Pattern Spec_Peg Spec_Scope Spec_Run Proof_Eval Proof_Codegen Proof_Machine Proof_Frag Proof_Compile Proof_Emit Proof_Main Model_Interval Spec_Interval Proof_Interval4 Model_Table Spec_Memo Proof_Memo.
Local Open Scope nat_scope.
Arguments Nat.max : simpl never.

(* ---------- the stored intervals ---------- *)
Definition cref_step {V} (m : list (stored V)) (o : iop V) : list (stored V) :=
  match o with
  | OAdd id low high v => m ++ [(id, low, high, v)]
  | OShift low high amt =>
      map (fun '(id, l, h, v) => if (low <=? l)%Z then (id, l + amt, h + amt, v)%Z else (id, l, h, v))
          (filter (fun '(id, l, h, v) => (high <? l)%Z || (h <? low)%Z) m)
  | OFind _ _ | OPos _ => m
  end.
Definition cref_run {V} (tr : list (iop V)) : list (stored V) := fold_left cref_step tr [].
Lemma cref_snoc : forall V (tr : list (iop V)) o, cref_run (tr ++ [o]) = cref_step (cref_run tr) o.
Proof. intros. unfold cref_run. rewrite fold_left_app. reflexivity. Qed.
Lemma cref_alive : forall V b m id p len (v : V), In (id, p, (p + len)%Z, v) m -> alive p len b ->
  In (id, follow p b, (follow p b + len)%Z, v) (fold_left cref_step b m).
Proof.
  induction b as [|o b IH]; intros m id p len v H A; [exact H|]. cbn [fold_left]. destruct A as [A1 A2].
  unfold follow. cbn [fold_left]. apply IH; [|exact A2]. destruct o; cbn [cref_step moved]; try exact H.
  - apply in_or_app. tauto.
  - apply in_map_iff. exists (id, p, (p + len)%Z, v). split.
    + destruct (low <=? p)%Z; [|reflexivity]. replace (p + amt + len)%Z with (p + len + amt)%Z by lia. reflexivity.
    + apply filter_In. split; [exact H|]. apply orb_true_iff. rewrite !Z.ltb_lt. lia.
Qed.
Lemma rel_cref : forall V (tr : list (iop V)) e, rel tr e -> In (unref e) (cref_run tr).
Proof.
  intros V tr [[[[r id] l] h] v] (a & low & high & b & ta & E & _ & _ & L1 & L2 & A). cbn. subst tr l h.
  unfold cref_run. rewrite fold_left_app. cbn [fold_left cref_step]. apply cref_alive; [|exact A].
  apply in_or_app. right. left. replace (low + (high - low))%Z with high by lia. reflexivity.
Qed.
Lemma found : forall V (tr : list (iop V)) t id pos v, calm tr -> it_run tr = Some t -> snd (it_find t id pos) = Some v ->
  exists h, In (id, pos, h, v) (cref_run tr).
Proof.
  intros V tr t id pos v C R H. destruct (run_spec tr C) as (t' & R' & T & _ & _ & E). rewrite R in R'. injection R' as <-.
  pose proof (find_spec t id pos T) as F. rewrite H in F. destruct F as (r & h & F & _). exists h. exact (rel_cref _ _ _ (E _ F)).
Qed.

Lemma calm_keep : forall V (tr : list (iop V)) o, calm tr -> sane o -> ~ is_shift o -> calm (tr ++ [o]).
Proof.
  intros V tr o [S H] So N1. split; [apply Forall_app; split; [exact S|constructor; [exact So|constructor]]|].
  assert (G : steady o) by (destruct o; cbn in *; tauto).
  destruct H as [H|(a & low & high & amt & b & E & Ha & Hb)]; [left; apply Forall_app; split; [exact H|constructor; [exact G|constructor]]|].
  right. exists a, low, high, amt, (b ++ [o]). split; [rewrite E, <- app_assoc; reflexivity|]. split; [exact Ha|].
  apply Forall_app; split; try assumption; (constructor; [assumption|constructor]).
Qed.
Lemma calm_shift : forall V (tr : list (iop V)) low high amt, calm tr -> sane (OShift (V:=V) low high amt) ->
  (-1 <= amt)%Z \/ Forall (fun o => ~ is_shift o) tr -> calm (tr ++ [OShift low high amt]).
Proof.
  intros V tr low high amt [S H] So G. split; [apply Forall_app; split; [exact S|constructor; [exact So|constructor]]|].
  destruct G as [G|G].
  - destruct H as [H|(a & l & h & m & b & E & Ha & Hb)]; [left; apply Forall_app; split; [exact H|constructor; [exact G|constructor]]|].
    right. exists a, l, h, m, (b ++ [OShift low high amt]). split; [rewrite E, <- app_assoc; reflexivity|]. split; [exact Ha|].
    apply Forall_app; split; try assumption; (constructor; [cbn; tauto|constructor]).
  - right. exists tr, low, high, amt, []. split; [reflexivity|]. split; [exact G|]. constructor.
Qed.

(* ---------- captures ---------- *)
Inductive from (i : nat) : ctree -> Prop := From : forall id st ln kids, i <= st -> Forall (from i) kids -> from i (CNode id st ln kids).
Lemma from_mono : forall i k, k <= i -> forall t, from i t -> from k t.
Proof.
  intros i k L. fix IH 2. intros t [id st ln kids H1 H2]. constructor; [lia|].
  revert kids H2. fix IHl 2. intros kids [|t0 l0 H3 H4]; constructor; [apply IH; exact H3|apply IHl; exact H4].
Qed.
Lemma from_all : forall i k ts, k <= i -> Forall (from i) ts -> Forall (from k) ts.
Proof. intros i k ts L H. eapply Forall_impl; [|exact H]. apply from_mono. exact L. Qed.
Lemma peg_from : forall s CS check E p i w r w', peg s (CS:=CS) check E p i w r w' -> match r with RSucc j ts => i <= j /\ Forall (from i) ts | _ => True end.
Proof.
  intros s CS check E p i w r w' H. induction H; try exact I; try (split; [lia|constructor]; fail); try assumption;
    try (destruct r; try exact I; try assumption; destruct IHpeg; split; [lia|]; assumption).
  - destruct IHpeg1, IHpeg2. split; [lia|]. apply Forall_app. split; [assumption|]. eapply from_all; [|eassumption]. lia.
  - destruct r; try exact I. exfalso. eapply H1. reflexivity.
  - destruct IHpeg1, IHpeg2. split; [lia|]. apply Forall_app. split; [assumption|]. eapply from_all; [|eassumption]. lia.
  - destruct IHpeg. split; [lia|]. assumption.
  - destruct IHpeg. split; [lia|]. constructor; [|constructor]. constructor; [lia|assumption].
  - destruct IHpeg. split; [lia|]. assumption.
  - destruct r; try exact I. destruct IHpeg2. split; [lia|]. eapply from_all; [|eassumption]. lia.
Qed.
Lemma tmove_ext : forall f g t, (forall st, f st = g st) -> tmove f t = tmove g t.
Proof.
  intros f g t H. revert t. fix IH 1. intros [id st ln kids]. cbn [tmove]. rewrite H. f_equal.
  revert kids. fix IHl 1. intros [|k l]; [reflexivity|]. cbn [map]. rewrite (IH k), (IHl l). reflexivity.
Qed.
Lemma tmove_from : forall i f g t, (forall st, i <= st -> f st = g st) -> from i t -> tmove f t = tmove g t.
Proof.
  intros i f g t H. revert t. fix IH 2. intros t [id st ln kids H1 H2]. cbn [tmove]. rewrite (H st H1). f_equal.
  revert kids H2. fix IHl 2. intros kids [|t0 l0 H3 H4]; [reflexivity|]. cbn [map]. rewrite (IH t0 H3), (IHl l0 H4). reflexivity.
Qed.
Lemma tmove_id : forall f t, (forall st, f st = st) -> tmove f t = t.
Proof.
  intros f t H. revert t. fix IH 1. intros [id st ln kids]. cbn [tmove]. rewrite H. f_equal.
  revert kids. fix IHl 1. intros [|k l]; [reflexivity|]. cbn [map]. rewrite (IH k), (IHl l). reflexivity.
Qed.
Lemma tmove_tmove : forall f g t, tmove f (tmove g t) = tmove (fun st => f (g st)) t.
Proof.
  intros f g. fix IH 1. intros [id st ln kids]. cbn [tmove]. f_equal.
  revert kids. fix IHl 1. intros [|k l]; [reflexivity|]. cbn [map]. rewrite (IH k), (IHl l). reflexivity.
Qed.
Lemma map_tmove_id : forall f ts, (forall st, f st = st) -> map (tmove f) ts = ts.
Proof. intros f ts H. induction ts as [|t ts IH]; [reflexivity|]. cbn [map]. rewrite IH, tmove_id by exact H. reflexivity. Qed.
Lemma map_tmove_from : forall i f g ts, (forall st, i <= st -> f st = g st) -> Forall (from i) ts -> map (tmove f) ts = map (tmove g) ts.
Proof. intros i f g ts H F. induction F as [|t ts Ht F IH]; [reflexivity|]. cbn [map]. rewrite IH, (tmove_from i f g) by assumption. reflexivity. Qed.
Lemma map_tmove_twice : forall f g ts, map (tmove f) (map (tmove g) ts) = map (tmove (fun st => f (g st))) ts.
Proof. intros. rewrite map_map. apply map_ext. intro. apply tmove_tmove. Qed.

Lemma flat1_shift : forall f c, flat1 (cap_shift f c) = map (tmove f) (flat1 c).
Proof.
  intro f. fix IH 1. intros [dm id st ln cs].
  assert (K : (fix go (cs : list capture) : list ctree := match cs with [] => [] | c :: cs => flat1 c ++ go cs end) (map (cap_shift f) cs) =
    map (tmove f) ((fix go (cs : list capture) : list ctree := match cs with [] => [] | c :: cs => flat1 c ++ go cs end) cs)).
  { revert cs. fix IHl 1. intros [|c l]; [reflexivity|]. cbn [map]. rewrite (IH c), map_app, (IHl l). reflexivity. }
  cbn [cap_shift flat1]. destruct dm; [exact K|]. cbn [map tmove]. rewrite K. reflexivity.
Qed.
Lemma flat_shift : forall f cs, flat (map (cap_shift f) cs) = map (tmove f) (flat cs).
Proof. intros f. induction cs as [|c cs IH]; [reflexivity|]. cbn [map flat]. rewrite flat1_shift, map_app, IH. reflexivity. Qed.

(* ---------- what an entry says ---------- *)
Section Facts.
Variable p : pattern.
Variable M0 : Z.
Variable Tl : list tent.
Definition MOK (id : Z) (E : env) (q : pattern) : Prop := (id <= M0)%Z /\ exists E1 q1, memoized p id E1 q1 /\ same_all E1 q1 E q.
Hypothesis Hnd : NoDup (map tid Tl).
Hypothesis Htid : forall t, In t Tl -> (M0 < tid t)%Z.
Hypothesis Hmok : forall m E q, In (m, E, q) Tl -> exists id, MOK id E q.
Lemma tok_once : forall m E q E' q', tin Tl m E q -> tin Tl m E' q' -> E = E' /\ q = q'.
Proof.
  intros m E q E' q'. unfold tin. clear Htid Hmok. induction Tl as [|t l IH]; [intros []|]. cbn [map] in Hnd. inversion Hnd as [|? ? N1 N2]; subst.
  assert (K : forall e f, In (m, e, f) l -> In m (map tid l)) by (intros e f H; apply in_map_iff; exists (m, e, f); auto).
  intros [H|H] [H'|H'].
  - subst t. injection H' as <- <-. auto.
  - subst t. exfalso. apply N1. eapply K. exact H'.
  - subst t. exfalso. apply N1. eapply K. exact H.
  - apply IH; assumption.
Qed.

Section Text.
Variable CS : Type.
Variable check : nat -> CS -> list byte -> list byte -> nat -> Z -> Z -> CS * option nat.
Variable s : list byte.
Notation reps1 := (reps1 CS check s).

Definition fact (bnd : nat -> Prop) (id : Z) (i : nat) (e : entry) : Prop :=
  Forall (from (e_at e)) (flat (e_capt e)) /\
  (forall E q, MOK id E q -> exists r,
    (forall w, exists n x, eval s check n E q i w = (Some r, w, x) /\ bnd x) /\
    match e_len e with
    | None => r = RFail
    | Some len => r = RSucc (i + len) (flat (moved_capt i e))
    end) /\
  (forall E q, tin Tl id E q -> exists len, e_len e = Some len /\
    forall w, exists x, reps1 E q i w (i + len) w (flat (moved_capt i e)) x /\ bnd x).
Lemma fact_mono : forall (b b' : nat -> Prop) id i e, (forall x, b x -> b' x) -> fact b id i e -> fact b' id i e.
Proof.
  intros b b' id i e H (F0 & F1 & F2). split; [exact F0|]. split.
  - intros E q M. destruct (F1 E q M) as (r & A & B). exists r. split; [|exact B]. intro w. destruct (A w) as (n & x & A1 & A2). eauto.
  - intros E q M. destruct (F2 E q M) as (len & A & B). exists len. split; [exact A|]. intro w. destruct (B w) as (x & B1 & B2). eauto.
Qed.

(* ---------- one parse ---------- *)
Variable strict : bool.
Hypothesis Hagree : forall id E q E' q' n i w r w' x, MOK id E q -> MOK id E' q' -> eval s check n E q i w = (Some r, w', x) ->
  exists n' x', eval s check n' E' q' i w = (Some r, w', x') /\ (strict = true -> x' = x).
Hypothesis Hpure : forall id E q n i w r w' x, MOK id E q -> eval s check n E q i w = (Some r, w', x) ->
  w' = w /\ forall v, exists n' x', eval s check n' E q i v = (Some r, v, x') /\ (strict = true -> x' = x).

Definition XB (x F : nat) : Prop := strict = true -> x <= S F.
Definition bnd (F : nat) (h : Z) (x : nat) : Prop := XB x F /\ (strict = true -> (Z.of_nat x <= h)%Z).
Definition TI (t : ttable) (F : nat) : Prop := exists t0 tr, t = Some t0 /\ calm tr /\ (strict = true -> Forall (fun o => ~ is_shift o) tr) /\
  it_run tr = Some t0 /\ forall id pos h e, In (id, pos, h, e) (cref_run tr) -> exists i, pos = Z.of_nat i /\ (pos < h)%Z /\ fact (bnd F h) id i e.

Lemma XB_mono : forall x F F', XB x F -> F <= F' -> XB x F'.
Proof. intros x F F' H L S. specialize (H S). lia. Qed.
Lemma XB_down : forall x y F, XB x F -> y <= x -> XB y F.
Proof. intros x y F H L S. specialize (H S). lia. Qed.
Lemma XB_max : forall x y F, XB x F -> XB y F -> XB (Nat.max x y) F.
Proof. intros x y F H H' S. specialize (H S). specialize (H' S). lia. Qed.
Lemma XB_le : forall x F, x <= S F -> XB x F.
Proof. intros x F H S. exact H. Qed.
Lemma TI_mono : forall t F F', TI t F -> F <= F' -> TI t F'.
Proof.
  intros t F F' (t0 & tr & A & B & C & D & H) L. exists t0, tr. repeat (split; [assumption|]). intros id pos h e He.
  destruct (H id pos h e He) as (i & H1 & H2 & H3). exists i. split; [exact H1|]. split; [exact H2|]. eapply fact_mono; [|exact H3].
  intros x [X1 X2]. split; [eapply XB_mono; eassumption|exact X2].
Qed.

Variable threshold : Z.
Notation ops := (tree_table threshold).

Lemma H_sync : forall tbl F id i, TI tbl F -> i <= List.length s -> TI (snd (t_get ops tbl id i)) F.
Proof.
  intros tbl F id i (t0 & tr & -> & C & N & R & H) _. cbn [tree_table t_get tt_get].
  destruct (it_find t0 id (Z.of_nat i)) as [t1 v] eqn:Ef. cbn [snd]. exists t1, (tr ++ [OFind id (Z.of_nat i)]). split; [reflexivity|].
  split; [apply calm_keep; [exact C|exact Logic.I|intros []]|].
  split; [intro S; apply Forall_app; split; [exact (N S)|constructor; [intros []|constructor]]|].
  split; [rewrite it_run_snoc, R; cbn [it_step]; rewrite Ef; reflexivity|]. rewrite cref_snoc. exact H.
Qed.
Lemma TI_ask : forall t F h, TI t F -> TI (tt_ask t h) F.
Proof.
  intros t F h (t0 & tr & -> & C & N & R & H). cbn [tt_ask option_map]. eexists. exists (tr ++ [OPos h]). split; [reflexivity|].
  split; [apply calm_keep; [exact C|exact Logic.I|intros []]|].
  split; [intro S; apply Forall_app; split; [exact (N S)|constructor; [intros []|constructor]]|].
  split; [rewrite it_run_snoc, R; reflexivity|]. rewrite cref_snoc. exact H.
Qed.
Lemma got : forall tbl F id i e, TI tbl F -> fst (t_get ops tbl id i) = Some e ->
  exists h en, fact (bnd F h) id i en /\ e = MEntry (e_len en) (e_count en) (moved_capt i en).
Proof.
  intros tbl F id i e (t0 & tr & -> & C & N & R & H). cbn [tree_table t_get tt_get].
  destruct (it_find t0 id (Z.of_nat i)) as [t1 v] eqn:Ef. cbn [fst]. intro Hv. destruct v as [en|]; [|discriminate]. injection Hv as <-.
  destruct (found _ tr t0 id (Z.of_nat i) en C R) as (h & Hh); [rewrite Ef; reflexivity|].
  destruct (H _ _ _ _ Hh) as (i' & E1 & _ & E2). apply Nat2Z.inj in E1. subst i'. exists h, en. auto.
Qed.
Lemma H_get : forall tbl F id E q i w e, TI tbl F -> MOK id E q -> i <= List.length s -> fst (t_get ops tbl id i) = Some e ->
  exists n r x, eval s check n E q i w = (Some r, w, x) /\ XB x F /\
    match me_len e with
    | None => r = RFail
    | Some len => exists ts, r = RSucc (i + len) ts /\ flat (me_capt e) = pr None ts
    end.
Proof.
  intros tbl F id E q i w e HT HM Hi He. destruct (got _ _ _ _ _ HT He) as (h & en & (_ & F1 & _) & ->).
  destruct (F1 E q HM) as (r & A & B). destruct (A w) as (n & x & A1 & A2 & _). exists n, r, x. split; [exact A1|]. split; [exact A2|].
  cbn [me_len me_capt]. destruct (e_len en) as [len|]; [|exact B]. eexists. split; [exact B|]. rewrite pr_clip. reflexivity.
Qed.
Lemma H_tget : forall tbl F id E q i w e, TI tbl F -> tin Tl id E q -> i <= List.length s -> fst (t_get ops tbl id i) = Some e ->
  exists len ts x, me_len e = Some len /\ reps1 E q i w (i + len) w ts x /\ XB x F /\ flat (me_capt e) = pr None ts.
Proof.
  intros tbl F id E q i w e HT HM Hi He. destruct (got _ _ _ _ _ HT He) as (h & en & (_ & _ & F2) & ->).
  destruct (F2 E q HM) as (len & A & B). destruct (B w) as (x & B1 & B2 & _). exists len. eexists. exists x. split; [exact A|]. split; [exact B1|]. split; [exact B2|].
  cbn [me_capt]. rewrite pr_clip. reflexivity.
Qed.

Lemma moved_same : forall i e, e_at e = i -> flat (moved_capt i e) = flat (e_capt e).
Proof. intros i e H. unfold moved_capt. rewrite flat_shift. apply map_tmove_id. intro st. lia. Qed.

Lemma put : forall tbl F id i len exam cnt cs, TI tbl F ->
  (forall en, e_len en = len -> e_capt en = cs -> e_at en = i -> fact (bnd F (Z.of_nat (i + Nat.max exam (match len with Some l => l | None => 0 end)))) id i en) ->
  0 < exam -> TI (t_put ops tbl id i len exam cnt cs) F.
Proof.
  intros tbl F id i len exam cnt cs (t0 & tr & -> & C & N & R & H) Hf He. cbn [tree_table t_put tt_put].
  destruct (_ || _); [exists t0, tr; auto 10|].
  eexists. exists (tr ++ [OAdd id (Z.of_nat i) (Z.of_nat (i + Nat.max exam (match len with Some l => l | None => 0 end)))
    (Entry len (Nat.max exam (match len with Some l => l | None => 0 end)) cnt cs i)]). split; [reflexivity|].
  split; [apply calm_keep; [exact C|cbn; lia|intros []]|].
  split; [intro S; apply Forall_app; split; [exact (N S)|constructor; [intros []|constructor]]|].
  split; [rewrite it_run_snoc, R; reflexivity|]. rewrite cref_snoc. cbn [cref_step]. intros id' pos h e Hin.
  apply in_app_or in Hin. destruct Hin as [Hin|[Hin|[]]]; [apply H; exact Hin|]. injection Hin as <- <- <- <-.
  exists i. split; [reflexivity|]. split; [lia|]. apply Hf; reflexivity.
Qed.
Lemma mok_tin : forall id E q E' q', MOK id E q -> tin Tl id E' q' -> False.
Proof. intros id E q E' q' [H _] H'. apply Htid in H'. cbn in H'. unfold tid in H'. cbn in H'. lia. Qed.
Lemma H_put_ok : forall tbl F id E q i n w j ts w' x cs, TI tbl F -> MOK id E q -> i <= List.length s ->
  eval s check n E q i w = (Some (RSucc j ts), w', x) -> XB x F -> flat cs = pr None ts ->
  TI (t_put ops tbl id i (Some (j - i)) (Nat.max F j - i + 1) 1 (Proof_Machine.stored None cs)) F.
Proof.
  intros tbl F id E q i n w j ts w' x cs HT HM Hi He HX Hc. apply put; [exact HT| |lia]. rewrite pr_clip in Hc. cbn [clip] in Hc.
  intros en E1 E2 E3. pose proof (peg_from _ _ _ _ _ _ _ _ _ (eval_sound _ _ _ _ _ _ _ _ _ _ _ He)) as [Hj Hts]. cbn [Proof_Machine.stored] in E2.
  destruct (Hpure _ _ _ _ _ _ _ _ _ HM He) as [-> Hv].
  split; [rewrite E2, E3, Hc; exact Hts|]. rewrite E1, (moved_same _ _ E3), E2, Hc. split.
  - intros E' q' HM'. exists (RSucc j ts). split; [|replace (i + (j - i)) with j by lia; reflexivity]. intro v. destruct (Hv v) as (n1 & x1 & A1 & A2).
    destruct (Hagree _ _ _ _ _ _ _ _ _ _ _ HM HM' A1) as (n2 & x2 & B1 & B2). exists n2, x2. split; [exact B1|].
    split; [intro S; rewrite (B2 S), (A2 S); exact (HX S)|]. intro S. rewrite (B2 S), (A2 S). specialize (HX S). lia.
  - intros E' q' HM'. exfalso. eapply mok_tin; eassumption.
Qed.
Lemma H_put_fail : forall tbl F id E q i n w w' x pos, TI tbl F -> MOK id E q -> i <= List.length s ->
  eval s check n E q i w = (Some RFail, w', x) -> XB x F ->
  TI (t_put ops tbl id i None (Nat.max F pos - i + 1) 0 (Proof_Machine.stored None [])) F.
Proof.
  intros tbl F id E q i n w w' x pos HT HM Hi He HX. apply put; [exact HT| |lia].
  intros en E1 E2 E3. cbn [Proof_Machine.stored] in E2. destruct (Hpure _ _ _ _ _ _ _ _ _ HM He) as [-> Hv].
  split; [rewrite E2; constructor|]. rewrite E1. split.
  - intros E' q' HM'. exists RFail. split; [|reflexivity]. intro v. destruct (Hv v) as (n1 & x1 & A1 & A2).
    destruct (Hagree _ _ _ _ _ _ _ _ _ _ _ HM HM' A1) as (n2 & x2 & B1 & B2). exists n2, x2. split; [exact B1|].
    split; [intro S; rewrite (B2 S), (A2 S); exact (HX S)|]. intro S. rewrite (B2 S), (A2 S). specialize (HX S). lia.
  - intros E' q' HM'. exfalso. eapply mok_tin; eassumption.
Qed.
Lemma reps_pure : forall id E q, MOK id E q -> forall i w j w' ts x, reps1 E q i w j w' ts x ->
  w' = w /\ i <= j /\ Forall (from i) ts /\ forall v, exists x', reps1 E q i v j v ts x' /\ (strict = true -> x' = x).
Proof.
  intros id E q HM i w j w' ts x H. induction H as [n i w j w' ts x He|n i w j w1 ts x k w' us y He Hr IH].
  - pose proof (peg_from _ _ _ _ _ _ _ _ _ (eval_sound _ _ _ _ _ _ _ _ _ _ _ He)) as [Hj Hts].
    destruct (Hpure _ _ _ _ _ _ _ _ _ HM He) as [-> Hv]. split; [reflexivity|]. split; [exact Hj|]. split; [exact Hts|].
    intro v. destruct (Hv v) as (n1 & x1 & A1 & A2). exists x1. split; [econstructor; exact A1|exact A2].
  - pose proof (peg_from _ _ _ _ _ _ _ _ _ (eval_sound _ _ _ _ _ _ _ _ _ _ _ He)) as [Hj Hts].
    destruct (Hpure _ _ _ _ _ _ _ _ _ HM He) as [-> Hv]. destruct IH as (-> & Hk & Hus & IH). split; [reflexivity|]. split; [lia|].
    split; [apply Forall_app; split; [exact Hts|eapply from_all; [exact Hj|exact Hus]]|].
    intro v. destruct (Hv v) as (n1 & x1 & A1 & A2). destruct (IH v) as (y1 & B1 & B2). exists (Nat.max x1 y1).
    split; [eapply r1_more; eassumption|]. intro S. rewrite (A2 S), (B2 S). reflexivity.
Qed.
Lemma H_tput : forall tbl F id E q i w j ts w' x cs cnt, TI tbl F -> tin Tl id E q -> i <= List.length s ->
  reps1 E q i w j w' ts x -> XB x F -> flat cs = pr None ts ->
  TI (t_put ops tbl id i (Some (j - i)) (Nat.max F j - i + 1) cnt (Proof_Machine.stored None cs)) F.
Proof.
  intros tbl F id E q i w j ts w' x cs cnt HT HM Hi He HX Hc. apply put; [exact HT| |lia]. rewrite pr_clip in Hc. cbn [clip] in Hc.
  intros en E1 E2 E3. cbn [Proof_Machine.stored] in E2. destruct (Hmok _ _ _ HM) as (mid & HM0).
  destruct (reps_pure _ _ _ HM0 _ _ _ _ _ _ He) as (-> & Hj & Hts & Hv).
  split; [rewrite E2, E3, Hc; exact Hts|]. rewrite E1, (moved_same _ _ E3), E2, Hc. split.
  - intros E' q' HM'. exfalso. eapply mok_tin; eassumption.
  - intros E' q' HM'. destruct (tok_once _ _ _ _ _ HM HM') as [<- <-]. exists (j - i). split; [reflexivity|]. intro v. replace (i + (j - i)) with j by lia.
    destruct (Hv v) as (x1 & A1 & A2). exists x1. split; [exact A1|]. split; [intro S; rewrite (A2 S); exact (HX S)|]. intro S. rewrite (A2 S). specialize (HX S). lia.
Qed.
End Text.
End Facts.
