(** Proofs about the interval tree of memo/interval/lazy. *)
From Coq Require Import ZArith Lia Permutation.
From Verif Require Import Base Model_Interval Spec_Interval Model_Lazy.
Local Open Scope Z_scope.

Section P.
Context {V : Type}.
Notation lnode := (lnode V).
Notation ltree := (ltree V).
Notation lztree := (lztree V).
Notation ival := (ival V).

(** ** The nodes of a tree with all their pending shifts *)
Definition vw : Type := nat * Z * Z * list ival.      (* handle, position, id, intervals *)
Definition v_ref (x : vw) : nat := let '(r, _, _, _) := x in r.
Definition v_pos (x : vw) : Z := let '(_, p, _, _) := x in p.
Definition v_id (x : vw) : Z := let '(_, _, i, _) := x in i.
Definition v_ins (x : vw) : list ival := let '(_, _, _, l) := x in l.
Definition lview (n : lnode) : vw := (ln_iv n, ln_pos n, ln_id n, ln_ins n).

Definition shv1 (x : vw) (s : lshift) : vw :=
  let '(r, p, i, ins) := x in if fst s <=? p then (r, p + snd s, i, ins_shift (snd s) ins) else x.
Definition shv (ss : list lshift) (x : vw) : vw := fold_left shv1 ss x.
Definition shz1 (m : Z) (s : lshift) : Z := if fst s <=? m then m + snd s else m.
Definition shz (ss : list lshift) (m : Z) : Z := fold_left shz1 ss m.

Fixpoint lviews (t : ltree) : list vw :=
  match t with
  | LLeaf => []
  | LNode n l r => map (shv (ln_sh n)) (lviews l ++ lview n :: lviews r)
  end.

Definition klt (x y : vw) : Prop := v_pos x < v_pos y \/ (v_pos x = v_pos y /\ v_id x < v_id y).
Definition below (m : Z) (x : vw) : Prop := v_pos x <= m /\ Forall (fun i => iv_high i <= m) (v_ins x).
Definition core (x : vw) : Prop := Forall (fun i => iv_low i = v_pos x /\ iv_low i < iv_high i) (v_ins x).
Definition grow (ss : list lshift) : Prop := Forall (fun s => 0 <= snd s) ss.

Fixpoint linv (t : ltree) : Prop :=
  match t with
  | LLeaf => True
  | LNode n l r =>
      grow (ln_sh n) /\ core (lview n) /\ below (ln_max n) (lview n) /\
      Forall (below (ln_max n)) (lviews l) /\ Forall (below (ln_max n)) (lviews r) /\
      Forall (fun x => klt x (lview n)) (lviews l) /\ Forall (klt (lview n)) (lviews r) /\
      linv l /\ linv r
  end.
Definition up (t : ltree) : Prop := match t with LLeaf => True | LNode n _ _ => ln_sh n = [] end.

Lemma klt_trans : forall x y z, klt x y -> klt y z -> klt x z.
Proof. unfold klt. intros. lia. Qed.
Lemma below_mono : forall m m' x, m <= m' -> below m x -> below m' x.
Proof. intros m m' x H [H1 H2]. split; [lia|]. eapply Forall_impl; [|exact H2]. cbn. intros. lia. Qed.
Lemma Forall_below_mono : forall m m' l, m <= m' -> Forall (below m) l -> Forall (below m') l.
Proof. intros. eapply Forall_impl; [|eassumption]. intros. eapply below_mono; eassumption. Qed.

(** ** Shifts *)
Lemma shv1_klt : forall s x y, 0 <= snd s -> klt x y -> klt (shv1 x s) (shv1 y s).
Proof.
  intros [a b] [[[r p] i] ins] [[[r' p'] i'] ins'] H K. unfold klt, shv1, v_pos, v_id in *. cbn in *.
  destruct (Z.leb_spec a p), (Z.leb_spec a p'); cbn; lia.
Qed.
Lemma shv_klt : forall ss x y, grow ss -> klt x y -> klt (shv ss x) (shv ss y).
Proof.
  induction ss as [|s ss IH]; intros x y G K; [exact K|]. inversion G; subst. cbn. apply IH; [assumption|].
  apply shv1_klt; assumption.
Qed.
Lemma shv1_core : forall s x, core x -> core (shv1 x s).
Proof.
  intros [a b] [[[r p] i] ins] H. unfold core, shv1 in *. cbn in *. destruct (a <=? p); [|exact H].
  cbn. unfold ins_shift. rewrite Forall_map. eapply Forall_impl; [|exact H]. cbn. intros. lia.
Qed.
Lemma shv_core : forall ss x, core x -> core (shv ss x).
Proof. induction ss; intros; [assumption|]. cbn. apply IHss, shv1_core. assumption. Qed.
Lemma shv1_below : forall s m x, 0 <= snd s -> below m x -> below (shz1 m s) (shv1 x s).
Proof.
  intros [a b] m [[[r p] i] ins] G [H1 H2]. unfold below, shv1, shz1 in *. cbn in *.
  destruct (Z.leb_spec a p).
  - cbn. destruct (Z.leb_spec a m); [|lia]. split; [lia|]. unfold ins_shift. rewrite Forall_map.
    eapply Forall_impl; [|exact H2]. cbn. intros. lia.
  - cbn. split; [destruct (Z.leb_spec a m); lia|]. eapply Forall_impl; [|exact H2]. cbn. intros. destruct (Z.leb_spec a m); lia.
Qed.
Lemma shv_below : forall ss m x, grow ss -> below m x -> below (shz ss m) (shv ss x).
Proof.
  induction ss as [|s ss IH]; intros m x G K; [exact K|]. inversion G; subst. cbn. apply IH; [assumption|].
  apply shv1_below; assumption.
Qed.
Lemma shv_app : forall a b x, shv (a ++ b) x = shv b (shv a x).
Proof. intros. unfold shv. apply fold_left_app. Qed.
Lemma shv_fixed : forall ss x, v_ref (shv ss x) = v_ref x /\ v_id (shv ss x) = v_id x /\ (v_ins (shv ss x) = [] <-> v_ins x = []).
Proof.
  induction ss as [|[a b] ss IH]; intros x; [cbn; tauto|]. change (shv ((a, b) :: ss) x) with (shv ss (shv1 x (a, b))).
  destruct (IH (shv1 x (a, b))) as (A & B & C). rewrite A, B, C. clear. destruct x as [[[r p] i] ins]. unfold shv1. cbn. destruct (a <=? p); cbn; [|tauto].
  split; [reflexivity|]. split; [reflexivity|]. destruct ins; cbn; split; intro H; try reflexivity; discriminate.
Qed.

(** the shifts as they are applied to a node *)
Lemma lshift_node_spec : forall n s, ln_pos n <= ln_max n -> 0 <= snd s ->
  lview (lshift_node n s) = shv1 (lview n) s /\ ln_max (lshift_node n s) = shz1 (ln_max n) s /\
  ln_pos (lshift_node n s) <= ln_max (lshift_node n s).
Proof.
  intros n [a b] H G. unfold lshift_node, shv1, shz1, lview. cbn in *.
  destruct (Z.leb_spec a (ln_max n)), (Z.leb_spec a (ln_pos n)); cbn; try (split; [reflexivity|]); try (split; [reflexivity|]); try lia.
Qed.
Lemma lapply_spec : forall ss n, ln_pos n <= ln_max n -> grow ss ->
  lview (lapply ss n) = shv ss (lview n) /\ ln_max (lapply ss n) = shz ss (ln_max n).
Proof.
  induction ss as [|s ss IH]; intros n H G; [auto|]. inversion G; subst. cbn [lapply fold_left].
  destruct (lshift_node_spec n s H) as (A & B & C); [assumption|]. specialize (IH _ C H3). unfold lapply in *. rewrite (proj1 IH), (proj2 IH).
  cbn. rewrite A, B. auto.
Qed.
Lemma lapply_same : forall ss (n : lnode), ln_sh (lapply ss n) = ln_sh n /\ ln_ref (lapply ss n) = ln_ref n /\
  ln_parent (lapply ss n) = ln_parent n /\ ln_iv (lapply ss n) = ln_iv n /\ ln_height (lapply ss n) = ln_height n.
Proof.
  induction ss as [|[a b] ss IH]; intros n; [auto 10|]. cbn [lapply fold_left]. unfold lapply in *.
  destruct (IH (lshift_node n (a, b))) as (A & B & C & D & E). rewrite A, B, C, D, E. unfold lshift_node.
  destruct (a <=? ln_max n); [destruct (a <=? ln_pos n)|]; cbn; auto 10.
Qed.
Lemma lapply_set_sh : forall ss (n : lnode) x, lset_sh [] (lapply ss (lset_sh x n)) = lset_sh [] (lapply ss n).
Proof.
  intros ss n x. revert n. assert (K : forall ss (n : lnode), lapply ss (lset_sh x n) = lset_sh x (lapply ss n)).
  { induction ss0 as [|[a b] ss0 IH]; intros n; [reflexivity|]. cbn [lapply fold_left]. unfold lapply in *. rewrite <- IH. f_equal.
    unfold lshift_node. cbn. destruct (a <=? ln_max n); [destruct (a <=? ln_pos n)|]; reflexivity. }
  intros n. rewrite K. reflexivity.
Qed.

(** ** Trees *)
Lemma map_shv_nil : forall l, map (shv []) l = l.
Proof. intros. rewrite <- (map_id l) at 2. apply map_ext. reflexivity. Qed.
Lemma lviews_up : forall n l r, ln_sh n = [] -> lviews (LNode n l r) = lviews l ++ lview n :: lviews r.
Proof. intros n l r H. cbn [lviews]. rewrite H. apply map_shv_nil. Qed.
Lemma lviews_size : forall t, List.length (lviews t) = lsize t.
Proof. induction t; [reflexivity|]. cbn [lviews lsize]. rewrite map_length, app_length. cbn [List.length]. lia. Qed.

Lemma add_shifts_views : forall ss t, lviews (add_shifts ss t) = map (shv ss) (lviews t).
Proof.
  intros ss [|n l r]; [reflexivity|]. cbn [add_shifts lviews ln_sh lset_sh]. rewrite map_map. apply map_ext. intros. apply shv_app.
Qed.
Lemma add_shifts_inv : forall ss t, grow ss -> linv t -> linv (add_shifts ss t).
Proof.
  intros ss [|n l r] G H; [exact H|]. cbn [add_shifts linv ln_sh lset_sh] in *. destruct H as [H1 H]. split; [|exact H].
  apply Forall_app; split; assumption.
Qed.
Lemma add_shifts_nil : forall t : ltree, add_shifts [] t = t.
Proof. intros [|[]]; cbn; [reflexivity|]. unfold lset_sh. cbn. rewrite app_nil_r. reflexivity. Qed.
Lemma add_shifts_app : forall a b (t : ltree), add_shifts b (add_shifts a t) = add_shifts (a ++ b) t.
Proof. intros a b [|n l r]; [reflexivity|]. cbn. unfold lset_sh. cbn. rewrite app_assoc. reflexivity. Qed.
Lemma add_shifts_size : forall ss (t : ltree), lsize (add_shifts ss t) = lsize t.
Proof. intros ss []; reflexivity. Qed.

(** the root of [add_shifts ss t] after applyShifts *)
Lemma push_add : forall ss n (l r : ltree),
  push (add_shifts ss (LNode n l r)) = LNode (lset_sh [] (lapply (ln_sh n ++ ss) n)) (add_shifts (ln_sh n ++ ss) l) (add_shifts (ln_sh n ++ ss) r).
Proof. intros. cbn [push add_shifts ln_sh lset_sh]. rewrite lapply_set_sh. reflexivity. Qed.

Lemma push_up : forall t : ltree, up (push t).
Proof. intros [|]; cbn; auto. Qed.
Lemma push_size : forall t : ltree, lsize (push t) = lsize t.
Proof. intros [|]; cbn [push lsize]; [reflexivity|]. rewrite !add_shifts_size. reflexivity. Qed.
Lemma push_spec : forall t, linv t -> linv (push t) /\ lviews (push t) = lviews t.
Proof.
  intros [|n l r] H; [cbn; auto|]. cbn [linv] in H. destruct H as (G & A & B & C & D & E & F & I & J).
  destruct (lapply_spec (ln_sh n) n (proj1 B) G) as [P Q].
  assert (Pv : lview (lset_sh [] (lapply (ln_sh n) n)) = shv (ln_sh n) (lview n)) by exact P.
  split.
  - cbn [push linv]. rewrite Pv. cbn [ln_sh lset_sh ln_max]. rewrite Q, !add_shifts_views, !Forall_map.
    split; [constructor|]. split; [apply shv_core; exact A|]. split; [apply shv_below; assumption|].
    split; [eapply Forall_impl; [|exact C]; intros; apply shv_below; assumption|].
    split; [eapply Forall_impl; [|exact D]; intros; apply shv_below; assumption|].
    split; [eapply Forall_impl; [|exact E]; cbn; intros; apply shv_klt; assumption|].
    split; [eapply Forall_impl; [|exact F]; cbn; intros; apply shv_klt; assumption|].
    split; apply add_shifts_inv; assumption.
  - cbn [push]. rewrite lviews_up by reflexivity. rewrite Pv, !add_shifts_views. cbn [lviews]. rewrite map_app. reflexivity.
Qed.

Lemma linv_up : forall n l r, ln_sh n = [] ->
  core (lview n) -> below (ln_max n) (lview n) -> Forall (below (ln_max n)) (lviews l) -> Forall (below (ln_max n)) (lviews r) ->
  Forall (fun x => klt x (lview n)) (lviews l) -> Forall (klt (lview n)) (lviews r) -> linv l -> linv r -> linv (LNode n l r).
Proof. intros. cbn [linv]. rewrite H. unfold grow. split; [constructor|]. tauto. Qed.
Lemma linv_elim : forall n l r, linv (LNode n l r) ->
  core (lview n) /\ below (ln_max n) (lview n) /\ Forall (below (ln_max n)) (lviews l) /\ Forall (below (ln_max n)) (lviews r) /\
  Forall (fun x => klt x (lview n)) (lviews l) /\ Forall (klt (lview n)) (lviews r) /\ linv l /\ linv r.
Proof. cbn [linv]. tauto. Qed.

Lemma ins_high_spec : forall ins h, fold_left (fun h (i : ival) => if h <? iv_high i then iv_high i else h) ins h >= h /\
  Forall (fun i => iv_high i <= fold_left (fun h (i : ival) => if h <? iv_high i then iv_high i else h) ins h) ins.
Proof.
  induction ins; intros h; cbn [fold_left]; [split; [lia|constructor]|].
  destruct (IHins (if h <? iv_high a then iv_high a else h)) as [A B].
  destruct (Z.ltb_spec h (iv_high a)); (split; [lia|]); constructor; try lia; exact B.
Qed.
Lemma lrefit_spec : forall (n : lnode) l r,
  lview (lrefit n l r) = lview n /\ ln_sh (lrefit n l r) = ln_sh n /\ ln_max n <= ln_max (lrefit n l r) /\
  Forall (fun i => iv_high i <= ln_max (lrefit n l r)) (ln_ins n) /\
  (forall c cl cr, l = LNode c cl cr -> ln_max c <= ln_max (lrefit n l r)) /\
  (forall c cl cr, r = LNode c cl cr -> ln_max c <= ln_max (lrefit n l r)).
Proof.
  intros n l r. unfold lrefit, lupdate_max. cbn [ln_max lset_max ln_sh lset_height ln_ins].
  assert (A : forall (t : ltree) m, m <= lmax_with t m) by (destruct t; cbn; lia).
  pose proof (A r (ln_max n)). pose proof (A l (lmax_with r (ln_max n))).
  split; [reflexivity|]. split; [reflexivity|]. split; [lia|]. split; [|split].
  - eapply Forall_impl; [|exact (proj2 (ins_high_spec (ln_ins n) 0))]. unfold calc_max, ins_high. cbn. intros. lia.
  - intros c cl cr ->. cbn. lia.
  - intros c cl cr ->. cbn in *. lia.
Qed.

(** a node whose maximum may not cover its children yet *)
Definition loose (n : lnode) (l r : ltree) : Prop :=
  ln_sh n = [] /\ core (lview n) /\ ln_pos n <= ln_max n /\
  (Forall (below (ln_max n)) (lviews l) \/ up l) /\ (Forall (below (ln_max n)) (lviews r) \/ up r) /\
  Forall (fun x => klt x (lview n)) (lviews l) /\ Forall (klt (lview n)) (lviews r) /\ linv l /\ linv r.

Lemma up_below : forall c m, up c -> linv c -> (forall n l r, c = LNode n l r -> ln_max n <= m) -> Forall (below m) (lviews c).
Proof.
  intros [|n l r] m U H K; [constructor|]. cbn [up] in U. apply linv_elim in H. destruct H as (A & B & C & D & _).
  specialize (K n l r eq_refl). rewrite lviews_up by assumption.
  apply Forall_app; split; [|constructor]; try (eapply Forall_below_mono; eassumption). eapply below_mono; eassumption.
Qed.
Lemma refit : forall n l r, loose n l r ->
  linv (LNode (lrefit n l r) l r) /\ ln_sh (lrefit n l r) = [] /\ lview (lrefit n l r) = lview n.
Proof.
  intros n l r (T & A & B & C & D & E & F & G & I).
  destruct (lrefit_spec n l r) as (U1 & U2 & U3 & U4 & U5 & U6).
  split; [|rewrite U2; auto]. apply linv_up; rewrite ?U1; try assumption.
  - split; [change (ln_pos n <= ln_max (lrefit n l r)); lia|]. exact U4.
  - destruct C as [C|C]; [eapply Forall_below_mono; eassumption|]. apply up_below; assumption.
  - destruct D as [D|D]; [eapply Forall_below_mono; eassumption|]. apply up_below; assumption.
Qed.

Lemma with_parent_views : forall p t, lviews (with_parent p t) = lviews t.
Proof. intros p []; reflexivity. Qed.
Lemma with_parent_inv : forall p t, linv t -> linv (with_parent p t).
Proof. intros p []; auto. Qed.
Lemma with_parent_up : forall p (t : ltree), up t -> up (with_parent p t).
Proof. intros p []; auto. Qed.

Lemma rotate_left_spec : forall p t t', linv t -> lrotate_left p t = Some t' -> linv t' /\ up t' /\ lviews t' = lviews t.
Proof.
  intros p t t' H E. unfold lrotate_left in E. destruct (push_spec t H) as [H' V']. pose proof (push_up t) as U.
  destruct (push t) as [|n l r]; [discriminate|]. cbn [up] in U. rewrite lviews_up in V' by exact U. rewrite <- V'. clear V' H t.
  apply linv_elim in H'. destruct H' as (A & B & C & D & F & G & I & J).
  destruct (push_spec r J) as [Js Vs]. pose proof (push_up r) as Us.
  destruct (push r) as [|m rl rr]; [discriminate|]. injection E as <-. cbn [up] in Us.
  apply linv_elim in Js. destruct Js as (A2 & B2 & C2 & D2 & F2 & G2 & I2 & J2).
  rewrite lviews_up in Vs by assumption. rewrite <- Vs in D, G.
  apply Forall_app in D. destruct D as [Da Db]. inversion Db as [|? ? Db1 Db2]; subst; clear Db.
  apply Forall_app in G. destruct G as [Ga Gb]. inversion Gb as [|? ? Gb1 Gb2]; subst; clear Gb.
  set (rl' := with_parent (Some (ln_ref n)) rl). set (n1 := lset_parent (Some (ln_ref m)) n).
  assert (Erl : lviews rl' = lviews rl) by apply with_parent_views. assert (Irl : linv rl') by (apply with_parent_inv; assumption).
  set (n2 := lrefit n1 l rl').
  destruct (lrefit_spec n1 l rl') as (U1 & U2 & U3 & _). fold n2 in U1, U2, U3.
  assert (T2 : ln_sh n2 = []) by (rewrite U2; exact U).
  assert (V2 : lview n2 = lview n) by (rewrite U1; reflexivity).
  assert (M2 : ln_max n <= ln_max n2) by exact U3.
  assert (IL : linv (LNode n2 l rl')).
  { apply linv_up; rewrite ?V2, ?Erl; try assumption.
    - eapply below_mono; eassumption.
    - eapply Forall_below_mono; eassumption.
    - eapply Forall_below_mono; eassumption. }
  set (left := LNode n2 l rl') in *. set (m1 := lset_parent p m). set (m2 := lrefit m1 left rr).
  destruct (lrefit_spec m1 left rr) as (U4 & U5 & U6 & _ & U7 & _). fold m2 in U4, U5, U6, U7.
  assert (T3 : ln_sh m2 = []) by (rewrite U5; exact Us).
  assert (V3 : lview m2 = lview m) by (rewrite U4; reflexivity).
  assert (M3 : ln_max n2 <= ln_max m2) by (eapply U7; reflexivity).
  assert (EL : lviews left = lviews l ++ lview n :: lviews rl).
  { unfold left. rewrite lviews_up by assumption. rewrite V2, Erl. reflexivity. }
  split; [|split].
  - apply linv_up; rewrite ?V3, ?EL; try assumption.
    + eapply below_mono; [|exact Db1]. lia.
    + apply Forall_app; split; [|constructor].
      * eapply Forall_below_mono; [|exact C]. lia.
      * eapply below_mono; [|exact B]. lia.
      * eapply Forall_below_mono; [|exact Da]. lia.
    + eapply Forall_below_mono; [|exact Db2]. lia.
    + apply Forall_app; split; [|constructor; assumption].
      eapply Forall_impl; [|exact F]. intros x Hx. exact (klt_trans _ _ _ Hx Gb1).
  - exact T3.
  - rewrite lviews_up by assumption. rewrite V3, EL, <- Vs, <- app_assoc. reflexivity.
Qed.
Lemma rotate_right_spec : forall p t t', linv t -> lrotate_right p t = Some t' -> linv t' /\ up t' /\ lviews t' = lviews t.
Proof.
  intros p t t' H E. unfold lrotate_right in E. destruct (push_spec t H) as [H' V']. pose proof (push_up t) as U.
  destruct (push t) as [|n l r]; [discriminate|]. cbn [up] in U. rewrite lviews_up in V' by exact U. rewrite <- V'. clear V' H t.
  apply linv_elim in H'. destruct H' as (A & B & C & D & F & G & I & J).
  destruct (push_spec l I) as [Js Vs]. pose proof (push_up l) as Us.
  destruct (push l) as [|m ll lr]; [discriminate|]. injection E as <-. cbn [up] in Us.
  apply linv_elim in Js. destruct Js as (A2 & B2 & C2 & D2 & F2 & G2 & I2 & J2).
  rewrite lviews_up in Vs by assumption. rewrite <- Vs in C, F.
  apply Forall_app in C. destruct C as [Da Db]. inversion Db as [|? ? Db1 Db2]; subst; clear Db.
  apply Forall_app in F. destruct F as [Ga Gb]. inversion Gb as [|? ? Gb1 Gb2]; subst; clear Gb.
  set (lr' := with_parent (Some (ln_ref n)) lr). set (n1 := lset_parent (Some (ln_ref m)) n).
  assert (Erl : lviews lr' = lviews lr) by apply with_parent_views. assert (Irl : linv lr') by (apply with_parent_inv; assumption).
  set (n2 := lrefit n1 lr' r).
  destruct (lrefit_spec n1 lr' r) as (U1 & U2 & U3 & _). fold n2 in U1, U2, U3.
  assert (T2 : ln_sh n2 = []) by (rewrite U2; exact U).
  assert (V2 : lview n2 = lview n) by (rewrite U1; reflexivity).
  assert (M2 : ln_max n <= ln_max n2) by exact U3.
  assert (IL : linv (LNode n2 lr' r)).
  { apply linv_up; rewrite ?V2, ?Erl; try assumption.
    - eapply below_mono; eassumption.
    - eapply Forall_below_mono; eassumption.
    - eapply Forall_below_mono; eassumption. }
  set (right := LNode n2 lr' r) in *. set (m1 := lset_parent p m). set (m2 := lrefit m1 ll right).
  destruct (lrefit_spec m1 ll right) as (U4 & U5 & U6 & _ & _ & U7). fold m2 in U4, U5, U6, U7.
  assert (T3 : ln_sh m2 = []) by (rewrite U5; exact Us).
  assert (V3 : lview m2 = lview m) by (rewrite U4; reflexivity).
  assert (M3 : ln_max n2 <= ln_max m2) by (eapply U7; reflexivity).
  assert (EL : lviews right = lviews lr ++ lview n :: lviews r).
  { unfold right. rewrite lviews_up by assumption. rewrite V2, Erl. reflexivity. }
  split; [|split].
  - apply linv_up; rewrite ?V3, ?EL; try assumption.
    + eapply below_mono; [|exact Db1]. lia.
    + eapply Forall_below_mono; [|exact Da]. lia.
    + apply Forall_app; split; [|constructor].
      * eapply Forall_below_mono; [|exact Db2]. lia.
      * eapply below_mono; [|exact B]. lia.
      * eapply Forall_below_mono; [|exact D]. lia.
    + apply Forall_app; split; [assumption|]. constructor; [assumption|].
      eapply Forall_impl; [|exact G]. intros x Hx. exact (klt_trans _ _ _ Gb1 Hx).
  - exact T3.
  - rewrite lviews_up by assumption. rewrite V3, EL, <- Vs, <- app_assoc. reflexivity.
Qed.

Lemma lrebalance_spec : forall p n l r, loose n l r ->
  linv (lrebalance p (LNode n l r)) /\ up (lrebalance p (LNode n l r)) /\
  lviews (lrebalance p (LNode n l r)) = lviews l ++ lview n :: lviews r.
Proof.
  intros p n l r H. unfold lrebalance. cbv zeta. destruct (refit n l r H) as (H2 & T2 & V2).
  set (n2 := lrefit n l r) in *. rewrite <- V2. clear V2 H.
  destruct (Nat.eqb (lheight r) (lheight l + 2)).
  - set (r2 := if (lheight_right r <? lheight_left r)%nat then lor_self (lrotate_right (Some (ln_ref n2)) r) r else r).
    assert (K : linv r2 /\ lviews r2 = lviews r).
    { apply linv_elim in H2. destruct H2 as (_ & _ & _ & _ & _ & _ & _ & J). unfold r2.
      destruct (Nat.ltb _ _); [|auto]. destruct (lrotate_right _ r) as [r3|] eqn:E; [|cbn; auto].
      destruct (rotate_right_spec _ _ _ J E) as (X & _ & Y). cbn. auto. }
    destruct K as [K1 K2].
    assert (H3 : linv (LNode n2 l r2)).
    { apply linv_elim in H2. destruct H2 as (A & B & C & D & E & F & G & I). apply linv_up; rewrite ?K2; assumption. }
    destruct (lrotate_left p (LNode n2 l r2)) as [t'|] eqn:E; cbn [lor_self].
    + destruct (rotate_left_spec _ _ _ H3 E) as (X & Y & Z). split; [exact X|]. split; [exact Y|].
      rewrite Z, lviews_up by assumption. rewrite K2. reflexivity.
    + split; [exact H3|]. split; [exact T2|]. rewrite lviews_up by assumption. rewrite K2. reflexivity.
  - destruct (Nat.eqb (lheight l) (lheight r + 2)).
    + set (l2 := if (lheight_left l <? lheight_right l)%nat then lor_self (lrotate_left (Some (ln_ref n2)) l) l else l).
      assert (K : linv l2 /\ lviews l2 = lviews l).
      { apply linv_elim in H2. destruct H2 as (_ & _ & _ & _ & _ & _ & J & _). unfold l2.
        destruct (Nat.ltb _ _); [|auto]. destruct (lrotate_left _ l) as [r3|] eqn:E; [|cbn; auto].
        destruct (rotate_left_spec _ _ _ J E) as (X & _ & Y). cbn. auto. }
      destruct K as [K1 K2].
      assert (H3 : linv (LNode n2 l2 r)).
      { apply linv_elim in H2. destruct H2 as (A & B & C & D & E & F & G & I). apply linv_up; rewrite ?K2; assumption. }
      destruct (lrotate_right p (LNode n2 l2 r)) as [t'|] eqn:E; cbn [lor_self].
      * destruct (rotate_right_spec _ _ _ H3 E) as (X & Y & Z). split; [exact X|]. split; [exact Y|].
        rewrite Z, lviews_up by assumption. rewrite K2. reflexivity.
      * split; [exact H3|]. split; [exact T2|]. rewrite lviews_up by assumption. rewrite K2. reflexivity.
    + split; [exact H2|]. split; [exact T2|]. apply lviews_up. exact T2.
Qed.

(** the tree [add_shifts ss t] with the shifts of its root applied *)
Lemma pushed : forall ss n l r, linv (add_shifts ss (LNode n l r)) ->
  let s := ln_sh n ++ ss in let n' := lset_sh [] (lapply s n) in
  lviews (add_shifts ss (LNode n l r)) = lviews (add_shifts s l) ++ lview n' :: lviews (add_shifts s r) /\
  ln_sh n' = [] /\ core (lview n') /\ below (ln_max n') (lview n') /\
  Forall (below (ln_max n')) (lviews (add_shifts s l)) /\ Forall (below (ln_max n')) (lviews (add_shifts s r)) /\
  Forall (fun x => klt x (lview n')) (lviews (add_shifts s l)) /\ Forall (klt (lview n')) (lviews (add_shifts s r)) /\
  linv (add_shifts s l) /\ linv (add_shifts s r).
Proof.
  intros ss n l r H s n'. destruct (push_spec _ H) as [A B]. rewrite push_add in A, B. fold s in A, B. fold n' in A, B.
  split; [rewrite <- B; apply lviews_up; reflexivity|]. split; [reflexivity|]. exact (linv_elim _ _ _ A).
Qed.

(** ** Adding *)
Inductive added_view (ref : nat) (pos id : Z) (v : ival) : list vw -> list vw -> nat -> Prop :=
| av_new : forall a b, added_view ref pos id v (a ++ b) (a ++ (ref, pos, id, [v]) :: b) ref
| av_old : forall a b r ins, added_view ref pos id v (a ++ (r, pos, id, ins) :: b) (a ++ (r, pos, id, ins ++ [v]) :: b) r.

Lemma added_view_app : forall ref pos id v a x y b h, added_view ref pos id v x y h ->
  added_view ref pos id v (a ++ x ++ b) (a ++ y ++ b) h.
Proof.
  intros ref pos id v a x y b h H. destruct H; rewrite <- !app_assoc; cbn [app].
  - rewrite !(app_assoc a). constructor.
  - rewrite !(app_assoc a). constructor.
Qed.
Lemma added_view_Forall : forall (P : vw -> Prop) ref pos id v x y h, added_view ref pos id v x y h ->
  P (ref, pos, id, [v]) -> (forall r ins, P (r, pos, id, ins) -> P (r, pos, id, ins ++ [v])) -> Forall P x -> Forall P y.
Proof.
  intros P ref pos id v x y h H H1 H2 F. destruct H; apply Forall_app in F; destruct F as [F1 F2]; apply Forall_app; split; try assumption.
  - constructor; assumption.
  - inversion F2; subst. constructor; auto.
Qed.

Lemma key_compare_spec : forall pos id pos' id',
  match key_compare pos id pos' id' with
  | Lt => pos < pos' \/ (pos = pos' /\ id < id')
  | Gt => pos' < pos \/ (pos' = pos /\ id' < id)
  | Eq => pos = pos' /\ id = id'
  end.
Proof.
  intros. unfold key_compare. destruct (Z.ltb_spec pos pos'); [lia|]. destruct (Z.ltb_spec pos' pos); [lia|].
  destruct (Z.ltb_spec id id'); [lia|]. destruct (Z.ltb_spec id' id); lia.
Qed.

Lemma ladd_spec : forall ref pos id v, iv_low v = pos -> iv_low v < iv_high v -> forall t p ss, linv (add_shifts ss t) ->
  let (t', h) := ladd ref pos id v p ss t in
  linv t' /\ up t' /\ added_view ref pos id v (lviews (add_shifts ss t)) (lviews t') h.
Proof.
  intros ref pos id v Hv1 Hv2. induction t as [|n l IHl r IHr]; intros p ss H.
  - cbn. split; [|split; [reflexivity|apply (av_new ref pos id v [] [])]].
    split; [constructor|]. unfold core, below. cbn. repeat split; try constructor; try constructor; auto; lia.
  - destruct (pushed ss n l r H) as (E & T & A & B & C & D & F & G & I & J). cbn [ladd]. rewrite E. clear E H.
    set (s := ln_sh n ++ ss) in *. set (n' := lset_sh [] (lapply s n)) in *.
    pose proof (key_compare_spec pos id (ln_pos n') (ln_id n')) as K. destruct (key_compare pos id (ln_pos n') (ln_id n')).
    + destruct K as [K1 K2]. set (n2 := lset_ins (ln_ins n' ++ [v]) n').
      destruct (lrebalance_spec p n2 (add_shifts s l) (add_shifts s r)) as (X & Y & Z).
      { unfold loose. split; [exact T|]. split; [|split; [exact (proj1 B)|tauto]].
        unfold core in *. cbn. apply Forall_app; split; [exact A|]. constructor; [|constructor]. rewrite Hv1. split; [exact K1|lia]. }
      split; [exact X|]. split; [exact Y|]. rewrite Z. unfold lview, n2. cbn [ln_iv ln_pos ln_id ln_ins lset_ins].
      rewrite <- K1, <- K2. apply av_old.
    + specialize (IHl (Some (ln_ref n')) s I). destruct (ladd ref pos id v (Some (ln_ref n')) s l) as [l' h]. destruct IHl as (X & Y & Z).
      destruct (lrebalance_spec p n' l' (add_shifts s r)) as (X2 & Y2 & Z2).
      { unfold loose. split; [exact T|]. split; [exact A|]. split; [exact (proj1 B)|]. split; [right; exact Y|]. split; [left; exact D|].
        split; [|split; [exact G|split; [exact X|exact J]]]. eapply added_view_Forall; [exact Z| | |exact F]; unfold klt; cbn; [|auto]. exact K. }
      split; [exact X2|]. split; [exact Y2|]. rewrite Z2. exact (added_view_app _ _ _ _ [] _ _ _ _ Z).
    + specialize (IHr (Some (ln_ref n')) s J). destruct (ladd ref pos id v (Some (ln_ref n')) s r) as [r' h]. destruct IHr as (X & Y & Z).
      destruct (lrebalance_spec p n' (add_shifts s l) r') as (X2 & Y2 & Z2).
      { unfold loose. split; [exact T|]. split; [exact A|]. split; [exact (proj1 B)|]. split; [left; exact C|]. split; [right; exact Y|].
        split; [exact F|]. split; [|split; [exact I|exact X]]. eapply added_view_Forall; [exact Z| | |exact G]; unfold klt; cbn; [|auto].
        exact K. }
      split; [exact X2|]. split; [exact Y2|]. rewrite Z2. pose proof (added_view_app _ _ _ _ (lviews (add_shifts s l) ++ [lview n']) _ _ [] _ Z) as Q.
      rewrite !app_nil_r, <- !app_assoc in Q. exact Q.
Qed.

(** ** Removing *)
Definition other (pos id : Z) (x : vw) : bool := negb ((v_pos x =? pos) && (v_id x =? id)).
Lemma filter_id : forall {A} (f : A -> bool) l, Forall (fun x => f x = true) l -> filter f l = l.
Proof. induction 1; cbn; [reflexivity|]. rewrite H, IHForall. reflexivity. Qed.
Lemma other_lt : forall pos id x y, v_pos y = pos -> v_id y = id -> klt x y -> other pos id x = true.
Proof. intros pos id x y <- <- K. unfold other, klt in *. destruct (Z.eqb_spec (v_pos x) (v_pos y)), (Z.eqb_spec (v_id x) (v_id y)); cbn; try reflexivity; lia. Qed.
Lemma other_gt : forall pos id x y, v_pos y = pos -> v_id y = id -> klt y x -> other pos id x = true.
Proof. intros pos id x y <- <- K. unfold other, klt in *. destruct (Z.eqb_spec (v_pos x) (v_pos y)), (Z.eqb_spec (v_id x) (v_id y)); cbn; try reflexivity; lia. Qed.

Lemma lsmallest_spec : forall l n r ss, linv (add_shifts ss (LNode n l r)) ->
  let m := lsmallest ss n l in
  exists rest, lviews (add_shifts ss (LNode n l r)) = lview m :: rest /\ Forall (klt (lview m)) rest /\ ln_sh m = [] /\ core (lview m).
Proof.
  induction l as [|ln ll IH lr _]; intros n r ss H m.
  - destruct (pushed ss n LLeaf r H) as (E & T & A & B & C & D & F & G & I & J). rewrite E. subst m. cbn [lsmallest].
    eexists. split; [reflexivity|]. split; [exact G|]. split; [reflexivity|exact A].
  - destruct (pushed ss n _ r H) as (E & T & A & B & C & D & F & G & I & J). rewrite E. subst m. cbn [lsmallest].
    destruct (IH ln lr (ln_sh n ++ ss) I) as (rest & R1 & R2 & R3 & R4).
    set (m := lsmallest (ln_sh n ++ ss) ln ll) in *. rewrite R1. cbn [app]. eexists. split; [reflexivity|]. split; [|auto].
    rewrite R1 in F. inversion F as [|? ? F1 F2]; subst. apply Forall_app; split; [exact R2|]. constructor; [exact F1|].
    eapply Forall_impl; [|exact G]. intros x Hx. exact (klt_trans _ _ _ F1 Hx).
Qed.

Lemma filter_other_mid : forall pos id a x b, v_pos x = pos -> v_id x = id -> Forall (fun y => klt y x) a -> Forall (klt x) b ->
  filter (other pos id) (a ++ x :: b) = a ++ b.
Proof.
  intros pos id a x b H1 H2 A B. rewrite filter_app. cbn [filter]. unfold other at 2. rewrite H1, H2, !Z.eqb_refl. cbn.
  rewrite !filter_id; [reflexivity| |].
  - eapply Forall_impl; [|exact B]. intros y. apply other_gt; assumption.
  - eapply Forall_impl; [|exact A]. intros y. apply other_lt; assumption.
Qed.
Lemma Forall_filter : forall {A} (P : A -> Prop) f l, Forall P l -> Forall P (filter f l).
Proof. induction 1; cbn; [constructor|]. destruct (f x); [constructor|]; assumption. Qed.

Lemma lremove_spec : forall t pos id p ss, linv (add_shifts ss t) ->
  linv (lremove pos id p ss t) /\ up (lremove pos id p ss t) /\
  lviews (lremove pos id p ss t) = filter (other pos id) (lviews (add_shifts ss t)).
Proof.
  induction t as [|n l IHl r IHr]; intros pos id p ss H; [cbn; auto|].
  destruct (pushed ss n l r H) as (E & T & A & B & C & D & F & G & I & J). cbn [lremove]. rewrite E. clear E H.
  set (s := ln_sh n ++ ss) in *. set (n' := lset_sh [] (lapply s n)) in *.
  pose proof (key_compare_spec pos id (ln_pos n') (ln_id n')) as K. destruct (key_compare pos id (ln_pos n') (ln_id n')).
  - destruct K as [-> ->]. rewrite filter_other_mid by (auto; reflexivity). destruct l as [|ln ll lr].
    + destruct r as [|rn rl rr]; [cbn; auto|]. set (r := LNode rn rl rr) in *. cbn [add_shifts lviews app].
      destruct (push_spec _ J) as [P1 P2]. pose proof (push_up (add_shifts s r)) as U.
      destruct (push (add_shifts s r)) as [|m ml mr]; [cbn; auto|]. cbn [with_parent]. cbn [up] in U.
      destruct (lrebalance_spec p (lset_parent p m) ml mr) as (X & Y & Z).
      { apply linv_elim in P1. destruct P1 as (A' & [B' _] & P1). unfold loose. cbn in B'. tauto. }
      split; [exact X|]. split; [exact Y|]. rewrite Z, <- P2. symmetry. exact (lviews_up m ml mr U).
    + destruct r as [|rn rl rr].
      * set (l := LNode ln ll lr) in *. rewrite app_nil_r. destruct (push_spec _ I) as [P1 P2]. pose proof (push_up (add_shifts s l)) as U.
        destruct (push (add_shifts s l)) as [|m ml mr]; [cbn in *; auto|]. cbn [with_parent]. cbn [up] in U.
        destruct (lrebalance_spec p (lset_parent p m) ml mr) as (X & Y & Z).
        { apply linv_elim in P1. destruct P1 as (A' & [B' _] & P1). unfold loose. cbn in B'. tauto. }
        split; [exact X|]. split; [exact Y|]. rewrite Z, <- P2. symmetry. exact (lviews_up m ml mr U).
      * set (l := LNode ln ll lr) in *. destruct (lsmallest_spec rl rn rr s J) as (rest & R1 & R2 & R3 & R4).
        set (m := lsmallest s rn rl) in *. set (r := LNode rn rl rr) in *. rewrite R1 in D, G. inversion D as [|? ? D1 D2]; subst. inversion G as [|? ? G1 G2]; subst.
        destruct (push_spec _ I) as [P1 P2]. pose proof (push_up (add_shifts s l)) as U.
        specialize (IHr (ln_pos m) (ln_id m) (Some (ln_ref (ltake m n'))) s J). destruct IHr as (X & Y & Z).
        rewrite R1, (filter_other_mid _ _ [] (lview m) rest) in Z by (auto; try reflexivity; constructor). cbn [app] in Z.
        set (r' := lremove (ln_pos m) (ln_id m) (Some (ln_ref (ltake m n'))) s r) in *.
        assert (Vm : lview (lset_parent p (ltake m n')) = lview m) by reflexivity.
        destruct (lrebalance_spec p (lset_parent p (ltake m n')) (push (add_shifts s l)) r') as (X2 & Y2 & Z2).
        { unfold loose. rewrite Vm, P2, Z. split; [exact R3|]. split; [exact R4|]. split; [exact (proj1 D1)|]. split; [left; exact C|].
          split; [left; exact D2|]. split; [|split; [exact R2|split; [exact P1|exact X]]].
          eapply Forall_impl; [|exact F]. intros x Hx. exact (klt_trans _ _ _ Hx G1). }
        split; [exact X2|]. split; [exact Y2|]. rewrite Z2, Vm, P2, Z, R1. reflexivity.
  - specialize (IHl pos id (Some (ln_ref n')) s I). destruct IHl as (X & Y & Z).
    destruct (lrebalance_spec p (lset_parent p n') (lremove pos id (Some (ln_ref n')) s l) (add_shifts s r)) as (X2 & Y2 & Z2).
    { unfold loose. rewrite Z. split; [exact T|]. split; [exact A|]. split; [exact (proj1 B)|]. split; [left; apply Forall_filter; exact C|].
      split; [left; exact D|]. split; [apply Forall_filter; exact F|]. tauto. }
    split; [exact X2|]. split; [exact Y2|]. rewrite Z2, Z, filter_app. f_equal.
    assert (Q : Forall (fun x => other pos id x = true) (lview n' :: lviews (add_shifts s r))).
    { constructor.
      - apply (other_gt pos id _ (0%nat, pos, id, [])); try reflexivity. unfold klt. cbn. exact K.
      - eapply Forall_impl; [|exact G]. intros x Hx. apply (other_gt pos id _ (0%nat, pos, id, [])); try reflexivity.
        eapply klt_trans; [|exact Hx]. unfold klt. cbn. exact K. }
    rewrite (filter_id _ _ Q). reflexivity.
  - specialize (IHr pos id (Some (ln_ref n')) s J). destruct IHr as (X & Y & Z).
    destruct (lrebalance_spec p (lset_parent p n') (add_shifts s l) (lremove pos id (Some (ln_ref n')) s r)) as (X2 & Y2 & Z2).
    { unfold loose. rewrite Z. split; [exact T|]. split; [exact A|]. split; [exact (proj1 B)|]. split; [left; exact C|].
      split; [left; apply Forall_filter; exact D|]. split; [exact F|]. split; [apply Forall_filter; exact G|]. tauto. }
    split; [exact X2|]. split; [exact Y2|]. rewrite Z2, Z, filter_app. cbn [filter].
    assert (K' : klt (lview n') (0%nat, pos, id, [])) by (unfold klt; cbn; exact K).
    rewrite (filter_id _ (lviews (add_shifts s l))).
    + rewrite (other_lt pos id (lview n') (0%nat, pos, id, [])) by (auto; reflexivity). reflexivity.
    + eapply Forall_impl; [|exact F]. intros x Hx. apply (other_lt pos id _ (0%nat, pos, id, [])); try reflexivity. exact (klt_trans _ _ _ Hx K').
Qed.

(** ** What is stored *)
Definition item : Type := nat * stored V.
Definition items_of (x : vw) : list item := map (fun i : ival => (v_ref x, (v_id x, v_pos x, iv_high i, iv_val i))) (v_ins x).
Definition flat (vs : list vw) : list item := flat_map items_of vs.
Definition full (t : ltree) : Prop := Forall (fun x => v_ins x <> []) (lviews t).
Definition keep (low high : Z) (x : item) : bool := let '(_, (id, l, h, v)) := x in negb (meets_b l h low high).

Lemma flat_app : forall a b, flat (a ++ b) = flat a ++ flat b.
Proof. intros. unfold flat. apply flat_map_app. Qed.
Lemma filter_perm' : forall {A} (f : A -> bool) l l', Permutation l l' -> Permutation (filter f l) (filter f l').
Proof.
  induction 1; cbn; [constructor| | |].
  - destruct (f x); [apply perm_skip|]; assumption.
  - destruct (f x), (f y); try reflexivity. apply perm_swap.
  - etransitivity; eassumption.
Qed.

Lemma ldrop_perm : forall low high fuel (kept l : list ival), (List.length l < fuel)%nat ->
  Permutation (ldrop fuel low high kept l) (kept ++ filter (fun i => negb (loverlaps i low high)) l).
Proof.
  induction fuel as [|fuel IH]; intros kept l H; [lia|]. destruct l as [|i rest]; [reflexivity|]. cbn [ldrop filter].
  destruct (loverlaps i low high); cbn [negb].
  - destruct rest as [|j rest]; [cbn; rewrite app_nil_r; reflexivity|]. set (l := j :: rest) in *.
    assert (E : l = removelast l ++ [last l i]) by (apply app_removelast_last; discriminate).
    rewrite IH.
    + apply Permutation_app_head. apply filter_perm'. rewrite E at 3. apply Permutation_cons_append.
    + assert (L : List.length l = S (List.length (removelast l))) by (rewrite E at 1; rewrite app_length; cbn; lia). cbn in *. lia.
  - rewrite IH by (cbn in H; lia). rewrite <- app_assoc. reflexivity.
Qed.

(** views without some of their intervals, without some views *)
Definition same (x' x : vw) : Prop := v_ref x' = v_ref x /\ v_pos x' = v_pos x /\ v_id x' = v_id x /\ incl (v_ins x') (v_ins x).
Inductive trims : list vw -> list vw -> Prop :=
| tr_nil : trims [] []
| tr_skip : forall x a b, trims a b -> trims a (x :: b)
| tr_keep : forall x' x a b, same x' x -> trims a b -> trims (x' :: a) (x :: b).
Lemma same_refl : forall x, same x x.
Proof. intros. unfold same. split; [|split; [|split]]; try reflexivity. apply incl_refl. Qed.
Lemma trims_refl : forall l, trims l l.
Proof. induction l; [constructor|]. apply tr_keep; [apply same_refl|assumption]. Qed.
Lemma trims_app : forall a a' b b', trims a b -> trims a' b' -> trims (a ++ a') (b ++ b').
Proof. induction 1; cbn; intros; [assumption|apply tr_skip|apply tr_keep]; auto. Qed.
Lemma trims_trans : forall b c, trims b c -> forall a, trims a b -> trims a c.
Proof.
  induction 1 as [|x b c H IH|x' x b c Hs H IH]; intros z H'; [assumption|apply tr_skip; auto|].
  inversion H' as [|? ? ? H1|y ? a0 ? Hy H1]; subst; [apply tr_skip; auto|]. apply tr_keep; [|auto]. unfold same in *. intuition; try congruence. eapply incl_tran; eassumption.
Qed.
Lemma trims_length : forall a b, trims a b -> (List.length a <= List.length b)%nat.
Proof. induction 1; cbn; lia. Qed.
Lemma trims_Forall : forall (P : vw -> Prop), (forall x' x, same x' x -> P x -> P x') -> forall a b, trims a b -> Forall P b -> Forall P a.
Proof. intros P M. induction 1; intros F; [constructor|inversion F; auto|]. inversion F; subst. constructor; eauto. Qed.
Lemma trims_refs : forall a b, trims a b -> NoDup (map v_ref b) -> NoDup (map v_ref a).
Proof.
  assert (K : forall a b x, trims a b -> In x (map v_ref a) -> In x (map v_ref b)).
  { induction 1; cbn; [tauto|tauto|]. destruct H as [-> _]. tauto. }
  induction 1; cbn; intros N; [constructor|inversion N; auto|]. inversion N; subst. constructor; [|auto]. destruct H as [-> _].
  intros X. apply (K a b) in X; auto.
Qed.
Lemma below_same : forall m x' x, same x' x -> below m x -> below m x'.
Proof.
  intros m x' x (A & B & C & D) [E F]. split; [lia|]. rewrite Forall_forall in *. auto.
Qed.
Lemma core_same : forall x' x, same x' x -> core x -> core x'.
Proof. intros x' x (A & B & C & D) E. unfold core in *. rewrite B. rewrite Forall_forall in *. auto. Qed.
Lemma klt_same_l : forall y x' x, same x' x -> klt x y -> klt x' y.
Proof. intros y x' x (A & B & C & D). unfold klt. lia. Qed.
Lemma klt_same_r : forall y x' x, same x' x -> klt y x -> klt y x'.
Proof. intros y x' x (A & B & C & D). unfold klt. lia. Qed.

Lemma linv_core : forall t, linv t -> Forall core (lviews t).
Proof.
  induction t; intros H; [constructor|]. cbn [lviews]. apply linv_elim in H. destruct H as (A & _ & _ & _ & _ & _ & I & J).
  rewrite Forall_map. apply Forall_app; split; [|constructor].
  - eapply Forall_impl; [|apply IHt1; exact I]. intros. apply shv_core. assumption.
  - apply shv_core. exact A.
  - eapply Forall_impl; [|apply IHt2; exact J]. intros. apply shv_core. assumption.
Qed.

Lemma flat_keep_all : forall low high vs, Forall core vs ->
  Forall (fun x => v_pos x >= high \/ Forall (fun i => iv_high i <= low) (v_ins x)) vs -> filter (keep low high) (flat vs) = flat vs.
Proof.
  intros low high vs A B. apply filter_id. rewrite Forall_forall in *. intros y Hy. unfold flat in Hy. apply in_flat_map in Hy. destruct Hy as (x & Hx & Hy).
  unfold items_of in Hy. apply in_map_iff in Hy. destruct Hy as (i & <- & Hi). unfold keep, meets_b. specialize (A x Hx). specialize (B x Hx).
  unfold core in A. rewrite Forall_forall in A. specialize (A i Hi). destruct B as [B|B].
  - destruct (Z.ltb_spec (v_pos x) high); [lia|reflexivity].
  - rewrite Forall_forall in B. specialize (B i Hi). destruct (Z.ltb_spec low (iv_high i)); [lia|]. rewrite Bool.andb_false_r. reflexivity.
Qed.
Lemma items_filter : forall low high x ins, core x -> Permutation ins (filter (fun i => negb (loverlaps i low high)) (v_ins x)) ->
  Permutation (items_of (v_ref x, v_pos x, v_id x, ins)) (filter (keep low high) (items_of x)).
Proof.
  intros low high [[[r p] id] l] ins C P. unfold items_of. cbn [v_ref v_pos v_id v_ins] in *. rewrite P. unfold core in C. cbn in C.
  clear P. induction l as [|i l IH]; [reflexivity|]. inversion C as [|? ? [C1 C2] C3]; subst. cbn [filter map].
  assert (E : keep low high (r, (id, iv_low i, iv_high i, iv_val i)) = negb (loverlaps i low high)) by reflexivity.
  rewrite E. destruct (loverlaps i low high); cbn [negb map]; [apply IH; exact C3|]. apply perm_skip. apply IH. exact C3.
Qed.

Lemma lro_spec : forall low high fuel p t, (lsize t < fuel)%nat -> linv t -> full t ->
  exists t', lremove_overlaps fuel low high p t = Some t' /\ linv t' /\ full t' /\ trims (lviews t') (lviews t) /\
    Permutation (flat (lviews t')) (filter (keep low high) (flat (lviews t))).
Proof.
  intros low high. induction fuel as [|fuel IH]; intros p t L H Fu; [lia|]. cbn [lremove_overlaps].
  destruct (push_spec t H) as [H' V']. pose proof (push_up t) as U. pose proof (push_size t) as S'. unfold full in Fu. rewrite <- V' in *. clear H V'.
  destruct (push t) as [|n l r]. { exists LLeaf. cbn. repeat split; try constructor. }
  cbn [up] in U. cbn [lsize] in S'. rewrite <- S' in L. clear S' t.
  destruct (Z.leb_spec (ln_max n) low) as [M|M].
  { exists (LNode n l r). split; [reflexivity|]. split; [exact H'|]. split; [exact Fu|]. split; [apply trims_refl|].
    rewrite flat_keep_all; [reflexivity|apply linv_core; exact H'|]. apply linv_elim in H'. destruct H' as (A & B & C & D & _).
    rewrite lviews_up by exact U. assert (K : forall x, below (ln_max n) x -> v_pos x >= high \/ Forall (fun i => iv_high i <= low) (v_ins x)).
    { intros x [_ K]. right. eapply Forall_impl; [|exact K]. cbn. intros. lia. }
    apply Forall_app; split; [|constructor; auto]; eapply Forall_impl; eauto. }
  pose proof (linv_core _ H') as CO. apply linv_elim in H'. destruct H' as (A & B & C & D & F & G & I & J).
  rewrite lviews_up in * by exact U. apply Forall_app in Fu. destruct Fu as [Fl Fu]. inversion Fu as [|? ? Fn Fr]; subst. clear Fu.
  destruct (IH (Some (ln_ref n)) l) as (l' & -> & Hl & Fl' & Tl & Pl); [cbn in L; lia|exact I|exact Fl|].
  set (ins := ldrop (S (List.length (ln_ins n))) low high [] (ln_ins n)). set (n1 := lset_ins ins n).
  assert (Pi : Permutation ins (filter (fun i => negb (loverlaps i low high)) (ln_ins n))) by (apply (ldrop_perm low high (S _) []); lia).
  assert (Sn : same (lview n1) (lview n)).
  { unfold same. cbn. repeat (split; [reflexivity|]). intros x Hx. apply (Permutation_in _ Pi) in Hx. apply filter_In in Hx. apply Hx. }
  assert (Pn : Permutation (items_of (lview n1)) (filter (keep low high) (items_of (lview n)))) by (apply (items_filter low high (lview n) ins A Pi)).
  assert (H1 : linv (LNode n1 l' r)).
  { apply linv_up; [exact U| | | | | | |exact Hl|exact J].
    - eapply core_same; eassumption.
    - eapply below_same; eassumption.
    - eapply trims_Forall; [apply below_same|exact Tl|exact C].
    - exact D.
    - eapply trims_Forall; [|exact Tl|]. 2: eapply Forall_impl; [|exact F]; intros x Hx; exact (klt_same_r _ _ _ Sn Hx).
      intros. eapply klt_same_l; eassumption.
    - eapply Forall_impl; [|exact G]. intros x Hx. exact (klt_same_l _ _ _ Sn Hx). }
  assert (HR : v_pos (lview n) >= high -> filter (keep low high) (flat (lviews r)) = flat (lviews r)).
  { intros K. apply flat_keep_all; [apply linv_core; exact J|]. eapply Forall_impl; [|exact G]. intros x Hx. left. unfold klt in Hx. lia. }
  change (ln_ins n1) with ins. destruct ins as [|i0 ins0] eqn:Ei.
  - destruct (lremove_spec (LNode n1 l' r) (ln_pos n1) (ln_id n1) p []) as (X & Y & Z); [rewrite add_shifts_nil; exact H1|].
    set (t2 := lremove (ln_pos n1) (ln_id n1) p [] (LNode n1 l' r)) in *. rewrite add_shifts_nil, lviews_up in Z by exact U.
    apply linv_elim in H1. destruct H1 as (_ & _ & _ & _ & F1 & G1 & _).
    rewrite filter_other_mid in Z by (auto; reflexivity).
    assert (T2 : trims (lviews t2) (lviews l ++ lview n :: lviews r)).
    { rewrite Z. apply trims_app; [exact Tl|]. apply tr_skip. apply trims_refl. }
    assert (Fu2 : full t2). { unfold full. rewrite Z. apply Forall_app; split; assumption. }
    assert (P0 : filter (keep low high) (items_of (lview n)) = []).
    { apply Permutation_nil. exact Pn. }
    rewrite !flat_app, filter_app. cbn [flat flat_map]. rewrite filter_app, P0. cbn [app]. change (flat_map items_of (lviews r)) with (flat (lviews r)).
    destruct (Z.ltb_spec (ln_pos n1) high).
    + destruct (IH p t2) as (t3 & -> & H3 & F3 & T3 & P3); [|exact X|exact Fu2|].
      { rewrite <- lviews_size, Z, app_length. apply trims_length in Tl. rewrite !lviews_size in *. lia. }
      exists t3. split; [reflexivity|]. split; [exact H3|]. split; [exact F3|]. split; [eapply trims_trans; eassumption|].
      rewrite P3, Z, flat_app, filter_app. apply Permutation_app; [|reflexivity].
      rewrite (filter_perm' _ _ _ Pl). rewrite filter_id; [reflexivity|]. rewrite Forall_forall. intros x Hx. apply filter_In in Hx. apply Hx.
    + exists t2. split; [reflexivity|]. split; [exact X|]. split; [exact Fu2|]. split; [exact T2|].
      rewrite Z, flat_app, HR by (cbn in *; lia). apply Permutation_app; [exact Pl|reflexivity].
  - rewrite !flat_app, filter_app. cbn [flat flat_map]. rewrite filter_app. change (flat_map items_of (lviews r)) with (flat (lviews r)).
    assert (Fn1 : v_ins (lview n1) <> []) by discriminate.
    destruct (Z.leb_spec high (ln_pos n1)).
    + exists (LNode n1 l' r). split; [reflexivity|]. split; [exact H1|]. unfold full. rewrite lviews_up by exact U.
      split; [apply Forall_app; split; [exact Fl'|constructor; assumption]|].
      split; [apply trims_app; [exact Tl|apply tr_keep; [exact Sn|apply trims_refl]]|].
      rewrite flat_app. cbn [flat flat_map]. change (flat_map items_of (lviews r)) with (flat (lviews r)).
      rewrite HR by (cbn in *; lia). apply Permutation_app; [exact Pl|]. apply Permutation_app; [exact Pn|reflexivity].
    + destruct (IH (Some (ln_ref n1)) r) as (r' & -> & Hr & Fr' & Tr & Pr); [cbn in L; lia|exact J|exact Fr|].
      exists (LNode n1 l' r'). split; [reflexivity|]. unfold full. rewrite lviews_up by exact U.
      apply linv_elim in H1. destruct H1 as (A1 & B1 & C1 & D1 & F1 & G1 & I1 & J1).
      split; [apply linv_up; try assumption|].
      * eapply trims_Forall; [apply below_same|exact Tr|exact D1].
      * eapply trims_Forall; [|exact Tr|exact G1]. intros. eapply klt_same_r; eassumption.
      * split; [apply Forall_app; split; [exact Fl'|constructor; assumption]|].
        split; [apply trims_app; [exact Tl|apply tr_keep; [exact Sn|exact Tr]]|].
        rewrite flat_app. cbn [flat flat_map]. change (flat_map items_of (lviews r')) with (flat (lviews r')).
        apply Permutation_app; [exact Pl|]. apply Permutation_app; [exact Pn|exact Pr].
Qed.

(** ** Looking up *)
Lemma lsearch_spec : forall pos id t ss, linv (add_shifts ss t) ->
  let (t', res) := lsearch pos id ss t in
  linv t' /\ lviews t' = lviews (add_shifts ss t) /\
  match res with
  | Some n => exists a b, lviews (add_shifts ss t) = a ++ (ln_iv n, pos, id, ln_ins n) :: b /\
                Forall (fun x => other pos id x = true) a /\ Forall (fun x => other pos id x = true) b
  | None => Forall (fun x => other pos id x = true) (lviews (add_shifts ss t))
  end.
Proof.
  intros pos id. induction t as [|n l IHl r IHr]; intros ss H; [cbn; auto|].
  destruct (pushed ss n l r H) as (E & T & A & B & C & D & F & G & I & J). cbn [lsearch]. rewrite E. clear E H.
  set (s := ln_sh n ++ ss) in *. set (n' := lset_sh [] (lapply s n)) in *.
  pose proof (key_compare_spec pos id (ln_pos n') (ln_id n')) as K. destruct (key_compare pos id (ln_pos n') (ln_id n')).
  - destruct K as [-> ->]. split; [apply linv_up; assumption|]. split; [apply lviews_up; exact T|].
    eexists _, _. split; [reflexivity|]. split.
    + eapply Forall_impl; [|exact F]. intros y. apply (other_lt _ _ y (lview n')); reflexivity.
    + eapply Forall_impl; [|exact G]. intros y. apply (other_gt _ _ y (lview n')); reflexivity.
  - specialize (IHl s I). destruct (lsearch pos id s l) as [l' res]. destruct IHl as (X & Y & Z).
    split; [apply linv_up; rewrite ?Y; assumption|]. split; [rewrite lviews_up by exact T; rewrite Y; reflexivity|].
    assert (Q : Forall (fun x => other pos id x = true) (lview n' :: lviews (add_shifts s r))).
    { constructor.
      - apply (other_gt pos id _ (0%nat, pos, id, [])); try reflexivity. unfold klt. cbn. exact K.
      - eapply Forall_impl; [|exact G]. intros x Hx. apply (other_gt pos id _ (0%nat, pos, id, [])); try reflexivity.
        eapply klt_trans; [|exact Hx]. unfold klt. cbn. exact K. }
    destruct res as [m|].
    + destruct Z as (a & b & Z1 & Z2 & Z3). exists a, (b ++ lview n' :: lviews (add_shifts s r)). rewrite Z1, <- app_assoc. cbn [app].
      split; [reflexivity|]. split; [exact Z2|]. apply Forall_app; split; assumption.
    + apply Forall_app; split; assumption.
  - specialize (IHr s J). destruct (lsearch pos id s r) as [r' res]. destruct IHr as (X & Y & Z).
    split; [apply linv_up; rewrite ?Y; assumption|]. split; [rewrite lviews_up by exact T; rewrite Y; reflexivity|].
    assert (K' : klt (lview n') (0%nat, pos, id, [])) by (unfold klt; cbn; exact K).
    assert (Q : Forall (fun x => other pos id x = true) (lviews (add_shifts s l) ++ [lview n'])).
    { apply Forall_app; split; [|constructor; [|constructor]].
      - eapply Forall_impl; [|exact F]. intros x Hx. apply (other_lt pos id _ (0%nat, pos, id, [])); try reflexivity. exact (klt_trans _ _ _ Hx K').
      - apply (other_lt pos id _ (0%nat, pos, id, [])); auto. }
    destruct res as [m|].
    + destruct Z as (a & b & Z1 & Z2 & Z3). exists (lviews (add_shifts s l) ++ lview n' :: a), b. rewrite Z1, <- app_assoc. cbn [app].
      split; [reflexivity|]. split; [|exact Z3]. change (lview n' :: a) with ([lview n'] ++ a). rewrite app_assoc. apply Forall_app; split; assumption.
    + change (lview n' :: lviews (add_shifts s r)) with ([lview n'] ++ lviews (add_shifts s r)). rewrite app_assoc. apply Forall_app; split; assumption.
Qed.

Lemma lhas_spec : forall h t, lhas h t = true <-> exists y, In y (lviews t) /\ v_ref y = h.
Proof.
  intros h t. induction t as [|n l IHl r IHr]; [cbn; split; [discriminate|intros (y & [] & _)]|].
  cbn [lhas lviews]. rewrite !Bool.orb_true_iff, IHl, IHr, Nat.eqb_eq. split.
  - intros [[E|(y & Hy & E)]|(y & Hy & E)].
    + exists (shv (ln_sh n) (lview n)). split; [apply in_map, in_or_app; right; left; reflexivity|]. rewrite (proj1 (shv_fixed _ _)). exact E.
    + exists (shv (ln_sh n) y). split; [apply in_map, in_or_app; left; exact Hy|]. rewrite (proj1 (shv_fixed _ _)). exact E.
    + exists (shv (ln_sh n) y). split; [apply in_map, in_or_app; right; right; exact Hy|]. rewrite (proj1 (shv_fixed _ _)). exact E.
  - intros (y & Hy & E). apply in_map_iff in Hy. destruct Hy as (x & <- & Hx). rewrite (proj1 (shv_fixed _ _)) in E.
    apply in_app_or in Hx. destruct Hx as [Hx|[<-|Hx]]; eauto.
Qed.
Lemma lhas_shifts : forall h ss (t : ltree), lhas h (add_shifts ss t) = lhas h t.
Proof. intros h ss []; reflexivity. Qed.

Lemma ltouch_spec : forall h t ss, linv (add_shifts ss t) ->
  let (t', x) := ltouch h ss t in
  linv t' /\ lviews t' = lviews (add_shifts ss t) /\
  match x with
  | Some p => exists y, In y (lviews (add_shifts ss t)) /\ v_ref y = h /\ v_pos y = p
  | None => forall y, In y (lviews (add_shifts ss t)) -> v_ref y <> h
  end.
Proof.
  intros h. induction t as [|n l IHl r IHr]; intros ss H; [cbn; auto|].
  destruct (pushed ss n l r H) as (E & T & A & B & C & D & F & G & I & J). cbn [ltouch]. rewrite E.
  set (s := ln_sh n ++ ss) in *. set (n' := lset_sh [] (lapply s n)) in *.
  assert (R : ln_iv n' = ln_iv n) by apply lapply_same.
  destruct (Nat.eqb_spec (ln_iv n) h) as [Q|Q].
  - split; [apply linv_up; assumption|]. split; [apply lviews_up; exact T|].
    exists (lview n'). split; [apply in_or_app; right; left; reflexivity|]. split; [change (ln_iv n' = h); congruence|reflexivity].
  - destruct (lhas h l) eqn:HL.
    + specialize (IHl s I). destruct (ltouch h s l) as [l' x]. destruct IHl as (X & Y & Z).
      split; [apply linv_up; rewrite ?Y; assumption|]. split; [rewrite lviews_up by exact T; rewrite Y; reflexivity|].
      destruct x as [p|].
      * destruct Z as (y & Z1 & Z2). exists y. split; [apply in_or_app; left; exact Z1|exact Z2].
      * exfalso. rewrite <- (lhas_shifts h s) in HL. apply lhas_spec in HL. destruct HL as (y & Y1 & Y2). exact (Z y Y1 Y2).
    + destruct (lhas h r) eqn:HR.
      * specialize (IHr s J). destruct (ltouch h s r) as [r' x]. destruct IHr as (X & Y & Z).
        split; [apply linv_up; rewrite ?Y; assumption|]. split; [rewrite lviews_up by exact T; rewrite Y; reflexivity|].
        destruct x as [p|].
        -- destruct Z as (y & Z1 & Z2). exists y. split; [apply in_or_app; right; right; exact Z1|exact Z2].
        -- exfalso. rewrite <- (lhas_shifts h s) in HR. apply lhas_spec in HR. destruct HR as (y & Y1 & Y2). exact (Z y Y1 Y2).
      * split; [exact H|]. split; [exact E|]. intros y Hy K. rewrite <- (lhas_shifts h s) in HL, HR.
        apply in_app_or in Hy. destruct Hy as [Hy|[<-|Hy]].
        -- assert (X : lhas h (add_shifts s l) = true) by (apply lhas_spec; eauto). congruence.
        -- change (ln_iv n' = h) in K. congruence.
        -- assert (X : lhas h (add_shifts s r) = true) by (apply lhas_spec; eauto). congruence.
Qed.

(** the keys are in order *)
Inductive sorted : list vw -> Prop :=
| so_nil : sorted []
| so_cons : forall x l, Forall (klt x) l -> sorted l -> sorted (x :: l).
Lemma sorted_app : forall a x b, sorted a -> sorted b -> Forall (fun y => klt y x) a -> Forall (klt x) b -> sorted (a ++ x :: b).
Proof.
  intros a x b A B C D. induction A; cbn; [constructor; assumption|]. inversion C as [|? ? C1 C2]; subst.
  constructor; [|apply IHA; exact C2]. apply Forall_app; split; [assumption|]. constructor; [assumption|].
  eapply Forall_impl; [|exact D]. intros y Hy. exact (klt_trans _ _ _ C1 Hy).
Qed.
Lemma linv_sorted : forall t, linv t -> sorted (lviews t).
Proof.
  induction t; intros H; [constructor|]. cbn [linv] in H. destruct H as (Gr & A & B & C & D & F & G & I & J). cbn [lviews].
  assert (S : sorted (lviews t1 ++ lview n :: lviews t2)) by (apply sorted_app; auto). revert S. generalize (lviews t1 ++ lview n :: lviews t2).
  intros vs S. induction S; cbn; constructor; [|assumption]. rewrite Forall_map. eapply Forall_impl; [|exact H]. intros. apply shv_klt; assumption.
Qed.
Definition vkey (x : vw) : Z * Z := (v_id x, v_pos x).
Lemma sorted_nodup : forall l, sorted l -> NoDup (map vkey l).
Proof.
  induction 1; cbn; constructor; [|assumption]. intros K. apply in_map_iff in K. destruct K as (y & E & Hy). rewrite Forall_forall in H. specialize (H y Hy).
  unfold vkey in E. injection E as E1 E2. unfold klt in H. lia.
Qed.

(** ** Histories *)
Definition good (t : lztree) (m : list item) : Prop :=
  linv (lt_root t) /\ full (lt_root t) /\ NoDup (map v_ref (lviews (lt_root t))) /\ Forall (fun x => (v_ref x < lt_next t)%nat) (lviews (lt_root t)) /\
  Permutation (flat (lviews (lt_root t))) m.
Definition shift_item (low amt : Z) (x : item) : item :=
  let '(r, (id, l, h, v)) := x in if low <=? l then (r, (id, l + amt, h + amt, v)) else x.

Lemma add_good : forall t m id low high v, 0 <= low < high -> good t m ->
  let (t', h) := lt_add t id low high v in good t' ((h, (id, low, high, v)) :: m).
Proof.
  intros t m id low high v Hl (A & B & C & D & E). unfold lt_add.
  pose proof (ladd_spec (lt_next t) low id (Iv low high v) eq_refl (proj2 Hl) (lt_root t) None []) as K. rewrite add_shifts_nil in K. specialize (K A).
  destruct (ladd (lt_next t) low id (Iv low high v) None [] (lt_root t)) as [t' h]. destruct K as (K1 & _ & K2).
  unfold good. cbn [lt_root lt_next]. split; [exact K1|]. split; [|split; [|split]].
  - unfold full in *. eapply added_view_Forall; [exact K2|discriminate| |exact B]. cbn. intros r ins Hn. destruct ins; discriminate.
  - inversion K2 as [a b E1 E2|a b r ins E1 E2]; subst.
    + rewrite <- E1 in C, D. rewrite map_app in *. cbn [map]. apply Permutation_NoDup with (lt_next t :: map v_ref a ++ map v_ref b).
      * apply Permutation_middle.
      * constructor; [|exact C]. rewrite <- map_app. intros X. apply in_map_iff in X. destruct X as (y & Y1 & Y2). rewrite Forall_forall in D. specialize (D y Y2). lia.
    + rewrite <- E1 in C. rewrite map_app in *. exact C.
  - eapply added_view_Forall; [exact K2|cbn; lia|cbn; auto|]. eapply Forall_impl; [|exact D]. cbn. intros. lia.
  - rewrite <- E. inversion K2 as [a b E1 E2|a b r ins E1 E2]; subst; rewrite !flat_app; cbn [flat flat_map].
    + symmetry. apply Permutation_middle.
    + unfold items_of at 1 3. cbn [v_ref v_pos v_id v_ins]. rewrite map_app, <- app_assoc. cbn [map app iv_high iv_val].
      rewrite app_assoc. rewrite (app_assoc (flat a)). symmetry. apply Permutation_middle.
Qed.

Lemma find_good : forall t m id pos, good t m -> good (fst (lt_find t id pos)) m.
Proof.
  intros t m id pos (A & B & C & D & E). unfold lt_find. pose proof (lsearch_spec pos id (lt_root t) []) as K. rewrite add_shifts_nil in K.
  specialize (K A). destruct (lsearch pos id [] (lt_root t)) as [t' res]. destruct K as (K1 & K2 & _).
  unfold good, full in *. cbn [fst lt_root lt_next]. rewrite K2. auto.
Qed.
Lemma pos_good : forall t m h, good t m -> good (fst (lt_pos t h)) m.
Proof.
  intros t m h (A & B & C & D & E). unfold lt_pos. pose proof (ltouch_spec h (lt_root t) []) as K. rewrite add_shifts_nil in K.
  specialize (K A). destruct (ltouch h [] (lt_root t)) as [t' res]. destruct K as (K1 & K2 & _).
  unfold good, full in *. cbn [fst lt_root lt_next]. rewrite K2. auto.
Qed.

Lemma flat_shift : forall low amt vs, Forall core vs -> flat (map (shv [(low, amt)]) vs) = map (shift_item low amt) (flat vs).
Proof.
  intros low amt vs H. induction H as [|x vs Hx H IH]; [reflexivity|]. cbn [map flat flat_map]. rewrite map_app. f_equal; [|exact IH].
  destruct x as [[[r p] id] ins]. unfold items_of, shift_item. cbn [shv fold_left shv1 fst snd v_ref v_pos v_id v_ins].
  destruct (low <=? p) eqn:E; cbn [v_ref v_pos v_id v_ins]; unfold ins_shift; rewrite !map_map; apply map_ext; intros i; rewrite E; reflexivity.
Qed.
Lemma shift_good : forall t m low high amt, 0 <= amt -> good t m ->
  exists t', lt_remove_and_shift t low high amt = Some t' /\ good t' (map (shift_item low amt) (filter (keep low high) m)).
Proof.
  intros t m low high amt G (A & B & C & D & E). unfold lt_remove_and_shift.
  destruct (lro_spec low high (S (lsize (lt_root t))) None (lt_root t)) as (t' & -> & X & Y & T & P); [lia|exact A|exact B|].
  eexists. split; [reflexivity|]. pose proof (trims_refs _ _ T C) as N.
  assert (D' : Forall (fun x => (v_ref x < lt_next t)%nat) (lviews t')).
  { eapply trims_Forall; [|exact T|exact D]. cbn. intros x' x (-> & _). auto. }
  assert (P' : Permutation (flat (lviews t')) (filter (keep low high) m)) by (rewrite P; apply filter_perm'; exact E).
  destruct (Z.eqb_spec amt 0) as [->|Ha].
  - unfold good. cbn [lt_root lt_next]. split; [exact X|]. split; [exact Y|]. split; [exact N|]. split; [exact D'|]. rewrite P'.
    erewrite map_ext; [rewrite map_id; reflexivity|]. intros (r & (((id & l) & h) & v)). cbn. rewrite !Z.add_0_r. destruct (low <=? l); reflexivity.
  - unfold good. cbn [lt_root lt_next]. split; [apply add_shifts_inv; [constructor; [exact G|constructor]|exact X]|].
    unfold full. rewrite add_shifts_views. rewrite !Forall_map, map_map.
    split; [eapply Forall_impl; [|exact Y]; cbn -[shv]; intros x Hx K; apply Hx; exact (proj1 (proj2 (proj2 (shv_fixed _ _))) K)|].
    split; [erewrite map_ext; [exact N|]; intros; apply shv_fixed|].
    split; [eapply Forall_impl; [|exact D']; cbn -[shv]; intros x Hx; rewrite (proj1 (shv_fixed _ _)); exact Hx|].
    rewrite flat_shift by (apply linv_core; exact X). apply Permutation_map. exact P'.
Qed.

Lemma empty_good : good lt_empty [].
Proof. unfold good, full. cbn. repeat split; constructor. Qed.
Lemma step_good : forall t m o, sane o -> growing o -> good t m -> exists t', lt_step (Some t) o = Some t' /\
  good t' (match o with
         | OAdd id low high v => (snd (lt_add t id low high v), (id, low, high, v)) :: m
         | OShift low high amt => map (shift_item low amt) (filter (keep low high) m)
         | _ => m
         end).
Proof.
  intros t m o S G H. destruct o as [id low high v|id pos|low high amt|h]; cbn [lt_step].
  - eexists. split; [reflexivity|]. pose proof (add_good t m id low high v S H) as K. destruct (lt_add t id low high v) as [t' h]. exact K.
  - eexists. split; [reflexivity|]. apply find_good. exact H.
  - apply shift_good; assumption.
  - eexists. split; [reflexivity|]. apply pos_good. exact H.
Qed.
Definition item_step (t : lztree) (m : list item) (o : iop V) : list item :=
  match o with
  | OAdd id low high v => (snd (lt_add t id low high v), (id, low, high, v)) :: m
  | OShift low high amt => map (shift_item low amt) (filter (keep low high) m)
  | _ => m
  end.
Lemma item_step_ref : forall t m o r, Permutation (map snd m) r -> Permutation (map snd (item_step t m o)) (ref_step r o).
Proof.
  intros t m o r H. destruct o as [id low high v|id pos|low high amt|h]; cbn [item_step ref_step map]; try exact H.
  - rewrite H. apply Permutation_cons_append.
  - set (f := fun '(id, l, h, v) => if low <=? l then (id, l + amt, h + amt, v) else (id, l, h, v) : stored V).
    assert (E : forall l, map snd (map (shift_item low amt) l) = map f (map snd l)).
    { intros l. rewrite !map_map. apply map_ext. intros (rf & (((id & l0) & h) & v)). cbn. destruct (low <=? l0); reflexivity. }
    rewrite E. apply Permutation_map.
    assert (Q : map snd (filter (keep low high) m) = filter (fun '(id, l, h, v) => negb (meets_b l h low high)) (map snd m)).
    { clear. induction m as [|(rf & (((id & l) & h) & v)) m IH]; [reflexivity|]. cbn [filter map keep snd].
      destruct (negb (meets_b l h low high)); cbn [map]; rewrite IH; reflexivity. }
    rewrite Q. apply filter_perm'. exact H.
Qed.

Lemma run_from : forall b t m r, Forall sane b -> Forall growing b -> good t m -> Permutation (map snd m) r ->
  exists t' m', fold_left lt_step b (Some t) = Some t' /\ good t' m' /\ Permutation (map snd m') (fold_left ref_step b r).
Proof.
  induction b as [|o b IH]; intros t m r S G H P; [exists t, m; auto|]. inversion S; subst. inversion G; subst. cbn [fold_left].
  destruct (step_good t m o) as (t' & E & H'); auto. rewrite E. eapply IH; eauto. apply (item_step_ref t m o r P).
Qed.
Lemma run_good : forall tr, Forall sane tr -> Forall growing tr ->
  exists t m, lt_run tr = Some t /\ good t m /\ Permutation (map snd m) (ref_run tr).
Proof. intros tr S G. apply (run_from tr lt_empty []); auto. apply empty_good. Qed.

Lemma lazy_total : forall tr : list (iop V), Forall sane tr -> Forall growing tr -> lt_run tr <> None.
Proof. intros tr S G. destruct (run_good tr S G) as (t & m & -> & _). discriminate. Qed.

Lemma lbest_max : forall (ins : list ival) max best, iv_high best = max ->
  In (lbest max best ins) (best :: ins) /\ Forall (fun i => iv_high i <= iv_high (lbest max best ins)) (best :: ins).
Proof.
  induction ins as [|i ins IH]; intros max best H; cbn [lbest].
  - split; [left; reflexivity|]. constructor; [lia|constructor].
  - destruct (Z.ltb_spec max (iv_high i)).
    + destruct (IH (iv_high i) i eq_refl) as [A B]. split; [right; exact A|]. constructor; [|exact B]. inversion B; subst. lia.
    + destruct (IH max best H) as [A B]. split; [destruct A as [A|A]; [left; exact A|right; right; exact A]|].
      inversion B; subst. constructor; [assumption|]. constructor; [lia|assumption].
Qed.

Lemma in_flat : forall vs r id p h v, In (r, (id, p, h, v)) (flat vs) <-> exists x i, In x vs /\ In i (v_ins x) /\
  v_ref x = r /\ v_id x = id /\ v_pos x = p /\ iv_high i = h /\ iv_val i = v.
Proof.
  intros. unfold flat. rewrite in_flat_map. split.
  - intros (x & Hx & Hi). unfold items_of in Hi. apply in_map_iff in Hi. destruct Hi as (i & E & Hi). injection E as <- <- <- <- <-. exists x, i. auto 10.
  - intros (x & i & Hx & Hi & <- & <- & <- & <- & <-). exists x. split; [exact Hx|]. unfold items_of. apply in_map_iff. eauto.
Qed.
Lemma in_ref : forall (m : list item) r s, Permutation (map snd m) r -> (In s r <-> exists h, In (h, s) m).
Proof.
  intros m r s P. split.
  - intros H. apply (Permutation_in _ (Permutation_sym P)) in H. apply in_map_iff in H. destruct H as ([h s'] & <- & H). eauto.
  - intros [h H]. apply (Permutation_in _ P). apply in_map_iff. exists (h, s). auto.
Qed.

Lemma ref_pos' : forall tr : list (iop V), Forall sane tr -> Forall growing tr -> Forall (fun '(id, l, h, v) => 0 <= l < h) (ref_run tr).
Proof.
  intros tr. unfold ref_run. assert (K : forall tr (m : list (stored V)), Forall sane tr -> Forall growing tr -> Forall (fun '(id, l, h, v) => 0 <= l < h) m ->
    Forall (fun '(id, l, h, v) => 0 <= l < h) (fold_left ref_step tr m)).
  { induction tr0 as [|o tr0 IH]; intros m S G H; [exact H|]. inversion S; subst. inversion G; subst. cbn [fold_left]. apply IH; auto.
    destruct o as [id low high v|id pos|low high amt|h]; cbn [ref_step]; auto.
    - apply Forall_app; split; [exact H|]. constructor; [exact H2|constructor].
    - rewrite Forall_map. apply Forall_filter. eapply Forall_impl; [|exact H]. intros (((id & l) & h) & v) Q. cbn in *. destruct (low <=? l); lia. }
  intros. apply K; auto.
Qed.

Lemma lazy_find : forall (tr : list (iop V)) t id pos, Forall sane tr -> Forall growing tr -> lt_run tr = Some t ->
  match snd (lt_find t id pos) with
  | Some v => exists h, In (id, pos, h, v) (ref_run tr) /\ forall h' v', In (id, pos, h', v') (ref_run tr) -> h' <= h
  | None => forall h v, ~ In (id, pos, h, v) (ref_run tr)
  end.
Proof.
  intros tr t id pos S G R. destruct (run_good tr S G) as (t' & m & R' & (A & B & C & D & E) & P). rewrite R in R'. injection R' as <-.
  pose proof (ref_pos' tr S G) as RP.
  unfold lt_find. pose proof (lsearch_spec pos id (lt_root t) []) as K. rewrite add_shifts_nil in K. specialize (K A).
  destruct (lsearch pos id [] (lt_root t)) as [t2 res]. destruct K as (K1 & K2 & K). cbn [snd].
  assert (IN : forall h v, In (id, pos, h, v) (ref_run tr) <-> exists x i, In x (lviews (lt_root t)) /\ In i (v_ins x) /\
     v_id x = id /\ v_pos x = pos /\ iv_high i = h /\ iv_val i = v).
  { intros h v. rewrite (in_ref m _ _ P). split.
    - intros [r H]. apply (Permutation_in _ (Permutation_sym E)) in H. apply in_flat in H. destruct H as (x & i & H). exists x, i. tauto.
    - intros (x & i & H). exists (v_ref x). apply (Permutation_in _ E). apply in_flat. exists x, i. tauto. }
  assert (OT : forall x, other pos id x = true -> v_id x = id -> v_pos x = pos -> False).
  { intros x O <- <-. unfold other in O. rewrite !Z.eqb_refl in O. discriminate. }
  destruct res as [n|].
  - destruct K as (a & b & V1 & V2 & V3). destruct (ln_ins n) as [|i0 ins] eqn:Ei.
    + exfalso. unfold full in B. rewrite V1 in B. apply Forall_app in B. destruct B as [_ B]. inversion B; subst. cbn in *. congruence.
    + assert (IN' : forall h v, In (id, pos, h, v) (ref_run tr) <-> exists i, In i (i0 :: ins) /\ iv_high i = h /\ iv_val i = v).
      { intros h v. rewrite IN. split.
        - intros (x & i & X1 & X2 & X3 & X4 & X5). rewrite V1 in X1. apply in_app_or in X1. destruct X1 as [X1|[X1|X1]].
          + exfalso. rewrite Forall_forall in V2. eauto.
          + subst x. exists i. auto.
          + exfalso. rewrite Forall_forall in V3. eauto.
        - intros (i & X1 & X2 & X3). exists (ln_iv n, pos, id, i0 :: ins), i. rewrite V1. split; [apply in_or_app; right; left; reflexivity|]. auto 10. }
      assert (P0 : iv_high i0 > 0).
      { assert (X : In (id, pos, iv_high i0, iv_val i0) (ref_run tr)) by (apply IN'; exists i0; cbn; auto).
        rewrite Forall_forall in RP. specialize (RP _ X). cbn in RP. lia. }
      cbn [lbest]. destruct (Z.ltb_spec 0 (iv_high i0)); [|lia]. destruct (lbest_max ins (iv_high i0) i0 eq_refl) as [M1 M2].
      exists (iv_high (lbest (iv_high i0) i0 ins)). split; [apply IN'; eauto|].
      intros h' v' X. apply IN' in X. destruct X as (i & X1 & <- & _). rewrite Forall_forall in M2. exact (M2 i X1).
  - intros h v X. apply IN in X. destruct X as (x & i & X1 & X2 & X3 & X4 & _). rewrite Forall_forall in K. eauto.
Qed.

(** a value that is not removed moves with the text *)
Lemma item_follows : forall b t m r id p len v, Forall sane b -> Forall growing b -> good t m -> In (r, (id, p, p + len, v)) m -> survives p len b ->
  exists t' m', fold_left lt_step b (Some t) = Some t' /\ good t' m' /\ In (r, (id, follow p b, follow p b + len, v)) m'.
Proof.
  induction b as [|o b IH]; intros t m r id p len v S G H I Sv; [exists t, m; auto|]. inversion S; subst. inversion G; subst. cbn [fold_left].
  destruct (step_good t m o) as (t' & E & H'); auto. rewrite E. cbn [survives] in Sv. destruct Sv as [Sv1 Sv2].
  unfold follow. cbn [fold_left]. apply (IH _ _ r id (moved p o) len v H3 H5 H'); [|exact Sv2].
  destruct o as [id' low high v'|id' pos|low high amt|h]; cbn [moved]; auto; [right; exact I|].
  apply in_map_iff. exists (r, (id, p, p + len, v)). split.
  - cbn. destruct (low <=? p); [|reflexivity]. replace (p + len + amt) with (p + amt + len) by lia. reflexivity.
  - apply filter_In. split; [exact I|]. cbn. unfold meets, meets_b in *. destruct (Z.ltb_spec p high), (Z.ltb_spec low (p + len)); cbn; try reflexivity. lia.
Qed.
Lemma lazy_handle : forall (a b : list (iop V)) id low high v t t', Forall sane (a ++ OAdd id low high v :: b) -> Forall growing (a ++ OAdd id low high v :: b) ->
  survives low (high - low) b -> lt_run a = Some t -> lt_run (a ++ OAdd id low high v :: b) = Some t' ->
  snd (lt_pos t' (snd (lt_add t id low high v))) = Some (follow low b).
Proof.
  intros a b id low high v t t' S G Sv R R'. apply Forall_app in S. destruct S as [S1 S2]. apply Forall_app in G. destruct G as [G1 G2].
  inversion S2 as [|? ? S3 S4]; subst. inversion G2 as [|? ? G3 G4]; subst.
  destruct (run_good a S1 G1) as (t0 & m & R0 & H & _). rewrite R in R0. injection R0 as <-.
  unfold lt_run in R'. rewrite fold_left_app in R'. unfold lt_run in R. rewrite R in R'. cbn [fold_left lt_step] in R'.
  pose proof (add_good t m id low high v S3 H) as H1. destruct (lt_add t id low high v) as [t1 h]. cbn [fst snd] in *.
  destruct (item_follows b t1 _ h id low (high - low) v S4 G4 H1) as (t2 & m2 & E2 & H2 & I2); [left; replace (low + (high - low)) with high by lia; reflexivity|exact Sv|].
  rewrite R' in E2. injection E2 as <-. destruct H2 as (A & B & C & D & E).
  apply (Permutation_in _ (Permutation_sym E)) in I2. apply in_flat in I2. destruct I2 as (x & i & X1 & _ & X2 & _ & X3 & _).
  unfold lt_pos. pose proof (ltouch_spec h (lt_root t') []) as K. rewrite add_shifts_nil in K. specialize (K A).
  destruct (ltouch h [] (lt_root t')) as [t3 res]. destruct K as (_ & _ & K). cbn [snd]. destruct res as [q|].
  - destruct K as (y & Y1 & Y2 & <-). f_equal. assert (y = x); [|subst; exact X3].
    clear -C X1 Y1 X2 Y2. rewrite <- Y2 in X2. clear Y2. induction (lviews (lt_root t')) as [|z l IH]; [destruct X1|]. cbn in C. inversion C; subst.
    destruct X1 as [->|X1], Y1 as [->|Y1]; auto; exfalso.
    + apply H1. rewrite X2. apply in_map. exact Y1.
    + apply H1. rewrite <- X2. apply in_map. exact X1.
  - exfalso. exact (K x X1 X2).
Qed.

(** Size is the number of keys *)
Lemma lazy_size : forall (tr : list (iop V)) t, Forall sane tr -> Forall growing tr -> lt_run tr = Some t ->
  exists ks, NoDup ks /\ (forall k, In k ks <-> In k (map stored_key (ref_run tr))) /\ lt_size t = List.length ks.
Proof.
  intros tr t S G R. destruct (run_good tr S G) as (t' & m & R' & (A & B & C & D & E) & P). rewrite R in R'. injection R' as <-.
  exists (map vkey (lviews (lt_root t))). split; [apply sorted_nodup, linv_sorted; exact A|]. split.
  - intros k. rewrite !in_map_iff. split.
    + intros (x & <- & Hx). unfold full in B. rewrite Forall_forall in B. specialize (B x Hx). destruct (v_ins x) as [|i ins] eqn:Ei; [congruence|].
      exists (v_id x, v_pos x, iv_high i, iv_val i). split; [reflexivity|]. apply (in_ref m _ _ P). exists (v_ref x). apply (Permutation_in _ E), in_flat.
      exists x, i. rewrite Ei. cbn. auto 10.
    + intros ((((id & l) & h) & v) & <- & H). apply (in_ref m _ _ P) in H. destruct H as [r H]. apply (Permutation_in _ (Permutation_sym E)), in_flat in H.
      destruct H as (x & i & X1 & _ & _ & <- & <- & _). exists x. auto.
  - rewrite map_length, lviews_size. reflexivity.
Qed.

(** ** Parent pointers, after any history *)
Definition kids (t : ltree) : Prop :=
  match t with LLeaf => True | LNode n l r => parents_from (Some (ln_ref n)) l /\ parents_from (Some (ln_ref n)) r end.
Lemma par_kids : forall p t, parents_from p t -> kids t.
Proof. intros p []; cbn; tauto. Qed.
Lemma par_shifts : forall p ss (t : ltree), parents_from p (add_shifts ss t) <-> parents_from p t.
Proof. intros p ss []; cbn; tauto. Qed.
Lemma par_push : forall p (t : ltree), parents_from p t -> parents_from p (push t).
Proof.
  intros p [|n l r]; cbn [push parents_from]; [auto|]. cbn [lset_sh ln_parent ln_ref]. rewrite !par_shifts.
  destruct (lapply_same (ln_sh n) n) as (_ & -> & -> & _). auto.
Qed.
Lemma kids_push : forall t, kids t -> kids (push t).
Proof.
  intros [|n l r]; cbn [push kids]; [auto|]. cbn [lset_sh ln_parent ln_ref]. rewrite !par_shifts.
  destruct (lapply_same (ln_sh n) n) as (_ & -> & _). auto.
Qed.
Lemma par_with : forall p (t : ltree), kids t -> parents_from p (with_parent p t).
Proof. intros p []; cbn; auto. Qed.
Lemma par_rotate_left : forall p t t', kids t -> lrotate_left p t = Some t' -> parents_from p t'.
Proof.
  intros p t t' H E. unfold lrotate_left in E. apply kids_push in H. destruct (push t) as [|n l r]; [discriminate|]. cbn [kids] in H. destruct H as [H1 H2].
  apply par_push in H2. destruct (push r) as [|m rl rr]; [discriminate|]. injection E as <-. cbn [parents_from] in H2. destruct H2 as (_ & H2 & H3).
  cbn. repeat (split; [try reflexivity; try assumption|]); try assumption. apply par_with. eapply par_kids. exact H2.
Qed.
Lemma par_rotate_right : forall p t t', kids t -> lrotate_right p t = Some t' -> parents_from p t'.
Proof.
  intros p t t' H E. unfold lrotate_right in E. apply kids_push in H. destruct (push t) as [|n l r]; [discriminate|]. cbn [kids] in H. destruct H as [H1 H2].
  apply par_push in H1. destruct (push l) as [|m ll lr]; [discriminate|]. injection E as <-. cbn [parents_from] in H1. destruct H1 as (_ & H1 & H3).
  cbn. repeat (split; [try reflexivity; try assumption|]); try assumption. apply par_with. eapply par_kids. exact H3.
Qed.
Lemma par_rebalance : forall p (t : ltree), parents_from p t -> parents_from p (lrebalance p t).
Proof.
  intros p [|n l r] H; [exact H|]. unfold lrebalance. cbv zeta. cbn [parents_from] in H. destruct H as (H1 & H2 & H3).
  set (n2 := lrefit n l r). assert (E1 : ln_parent n2 = p) by exact H1. assert (E2 : ln_ref n2 = ln_ref n) by reflexivity. rewrite E2.
  destruct (Nat.eqb (lheight r) (lheight l + 2)).
  - set (r2 := if (lheight_right r <? lheight_left r)%nat then lor_self (lrotate_right (Some (ln_ref n)) r) r else r).
    assert (K : parents_from (Some (ln_ref n)) r2).
    { unfold r2. destruct (Nat.ltb _ _); [|exact H3]. destruct (lrotate_right _ r) as [r3|] eqn:E; [|exact H3]. eapply par_rotate_right; [|exact E]. eapply par_kids; exact H3. }
    destruct (lrotate_left p (LNode n2 l r2)) as [t'|] eqn:E; cbn [lor_self].
    + eapply par_rotate_left; [|exact E]. cbn [kids]. rewrite E2. auto.
    + cbn [parents_from]. rewrite E2. auto.
  - destruct (Nat.eqb (lheight l) (lheight r + 2)).
    + set (l2 := if (lheight_left l <? lheight_right l)%nat then lor_self (lrotate_left (Some (ln_ref n)) l) l else l).
      assert (K : parents_from (Some (ln_ref n)) l2).
      { unfold l2. destruct (Nat.ltb _ _); [|exact H2]. destruct (lrotate_left _ l) as [r3|] eqn:E; [|exact H2]. eapply par_rotate_left; [|exact E]. eapply par_kids; exact H2. }
      destruct (lrotate_right p (LNode n2 l2 r)) as [t'|] eqn:E; cbn [lor_self].
      * eapply par_rotate_right; [|exact E]. cbn [kids]. rewrite E2. auto.
      * cbn [parents_from]. rewrite E2. auto.
    + cbn [parents_from]. rewrite E2. auto.
Qed.
Lemma par_add : forall ref pos id v (t : ltree) p ss, parents_from p t -> parents_from p (fst (ladd ref pos id v p ss t)).
Proof.
  intros ref pos id v. induction t as [|n l IHl r IHr]; intros p ss H; [cbn; auto|]. cbn [parents_from] in H. destruct H as (H1 & H2 & H3). cbn [ladd].
  set (s := ln_sh n ++ ss). set (n' := lset_sh [] (lapply s n)).
  assert (E1 : ln_ref n' = ln_ref n) by apply lapply_same. assert (E2 : ln_parent n' = ln_parent n) by apply lapply_same. rewrite E1.
  destruct (key_compare pos id (ln_pos n') (ln_id n')).
  - cbn [fst]. apply par_rebalance. cbn [parents_from ln_parent ln_ref lset_ins]. rewrite E1, E2, !par_shifts. auto.
  - specialize (IHl (Some (ln_ref n)) s H2). destruct (ladd ref pos id v (Some (ln_ref n)) s l) as [l' h]. cbn [fst] in *. apply par_rebalance.
    cbn [parents_from]. rewrite E1, E2, par_shifts. auto.
  - specialize (IHr (Some (ln_ref n)) s H3). destruct (ladd ref pos id v (Some (ln_ref n)) s r) as [r' h]. cbn [fst] in *. apply par_rebalance.
    cbn [parents_from]. rewrite E1, E2, par_shifts. auto.
Qed.
Lemma par_remove : forall (t : ltree) pos id p ss, kids t -> parents_from p (lremove pos id p ss t).
Proof.
  induction t as [|n l IHl r IHr]; intros pos id p ss H; [exact Logic.I|]. cbn [kids] in H. destruct H as (H2 & H3). cbn [lremove].
  set (s := ln_sh n ++ ss). set (n' := lset_sh [] (lapply s n)).
  assert (E1 : ln_ref n' = ln_ref n) by apply lapply_same.
  destruct (key_compare pos id (ln_pos n') (ln_id n')).
  - destruct l as [|ln ll lr].
    + destruct r as [|rn rl rr]; [exact Logic.I|]. apply par_rebalance, par_with. apply par_kids in H3. apply kids_push. exact H3.
    + destruct r as [|rn rl rr].
      * apply par_rebalance, par_with. apply par_kids in H2. apply kids_push. exact H2.
      * apply par_rebalance. set (m := lsmallest s rn rl). cbn [parents_from]. cbn [ln_parent ln_ref lset_parent ltake]. rewrite E1.
        split; [reflexivity|]. split; [apply par_push, par_shifts; exact H2|]. apply IHr. eapply par_kids; exact H3.
  - apply par_rebalance. cbn [parents_from ln_parent ln_ref lset_parent]. rewrite E1, par_shifts. split; [reflexivity|]. split; [|exact H3]. apply IHl. eapply par_kids; exact H2.
  - apply par_rebalance. cbn [parents_from ln_parent ln_ref lset_parent]. rewrite E1, par_shifts. split; [reflexivity|]. split; [exact H2|]. apply IHr. eapply par_kids; exact H3.
Qed.
Lemma par_search : forall pos id (t : ltree) p ss, parents_from p t -> parents_from p (fst (lsearch pos id ss t)).
Proof.
  intros pos id. induction t as [|n l IHl r IHr]; intros p ss H; [exact Logic.I|]. cbn [parents_from] in H. destruct H as (H1 & H2 & H3). cbn [lsearch].
  set (s := ln_sh n ++ ss). set (n' := lset_sh [] (lapply s n)).
  assert (E1 : ln_ref n' = ln_ref n) by apply lapply_same. assert (E2 : ln_parent n' = ln_parent n) by apply lapply_same.
  destruct (key_compare pos id (ln_pos n') (ln_id n')).
  - cbn [fst parents_from]. rewrite E1, E2, !par_shifts. auto.
  - specialize (IHl (Some (ln_ref n)) s H2). destruct (lsearch pos id s l) as [l' h]. cbn [fst parents_from] in *. rewrite E1, E2, par_shifts. auto.
  - specialize (IHr (Some (ln_ref n)) s H3). destruct (lsearch pos id s r) as [r' h]. cbn [fst parents_from] in *. rewrite E1, E2, par_shifts. auto.
Qed.
Lemma par_touch : forall h (t : ltree) p ss, parents_from p t -> parents_from p (fst (ltouch h ss t)).
Proof.
  intros h. induction t as [|n l IHl r IHr]; intros p ss H; [exact Logic.I|]. pose proof H as H0. cbn [parents_from] in H. destruct H as (H1 & H2 & H3). cbn [ltouch].
  set (s := ln_sh n ++ ss). set (n' := lset_sh [] (lapply s n)).
  assert (E1 : ln_ref n' = ln_ref n) by apply lapply_same. assert (E2 : ln_parent n' = ln_parent n) by apply lapply_same.
  destruct (ln_iv n =? h)%nat; [|destruct (lhas h l); [|destruct (lhas h r)]].
  - cbn [fst parents_from]. rewrite E1, E2, !par_shifts. auto.
  - specialize (IHl (Some (ln_ref n)) s H2). destruct (ltouch h s l) as [l' x]. cbn [fst parents_from] in *. rewrite E1, E2, par_shifts. auto.
  - specialize (IHr (Some (ln_ref n)) s H3). destruct (ltouch h s r) as [r' x]. cbn [fst parents_from] in *. rewrite E1, E2, par_shifts. auto.
  - cbn [fst]. exact H0.
Qed.
Lemma par_overlaps : forall low high fuel p (t : ltree) t', parents_from p t -> lremove_overlaps fuel low high p t = Some t' -> parents_from p t'.
Proof.
  intros low high. induction fuel as [|fuel IH]; intros p t t' H E; [discriminate|]. cbn [lremove_overlaps] in E.
  apply par_push in H. destruct (push t) as [|n l r]; [injection E as <-; exact H|].
  destruct (ln_max n <=? low); [injection E as <-; exact H|]. cbn [parents_from] in H. destruct H as (H1 & H2 & H3).
  destruct (lremove_overlaps fuel low high (Some (ln_ref n)) l) as [l'|] eqn:El; [|discriminate]. apply IH in El; [|exact H2].
  set (n1 := lset_ins _ n) in E. destruct (ln_ins n1) as [|i0 ins0].
  - assert (K : parents_from p (lremove (ln_pos n1) (ln_id n1) p [] (LNode n1 l' r))) by (apply par_remove; cbn; auto).
    destruct (ln_pos n1 <? high); [eapply IH; eassumption|]. injection E as <-. exact K.
  - destruct (high <=? ln_pos n1); [injection E as <-; cbn; auto|].
    destruct (lremove_overlaps fuel low high (Some (ln_ref n1)) r) as [r'|] eqn:Er; [|discriminate]. injection E as <-. apply IH in Er; [|exact H3]. cbn. auto.
Qed.
Lemma lazy_parents : forall (tr : list (iop V)) t, lt_run tr = Some t -> parents_from None (lt_root t).
Proof.
  intros tr. unfold lt_run. assert (K : forall tr (t0 : lztree), parents_from None (lt_root t0) -> forall t, fold_left lt_step tr (Some t0) = Some t -> parents_from None (lt_root t)).
  { induction tr0 as [|o tr0 IH]; intros t0 H t E; [cbn in E; injection E as <-; exact H|]. cbn [fold_left] in E.
    assert (N : forall tr : list (iop V), fold_left lt_step tr None = None) by (induction tr1; auto).
    destruct (lt_step (Some t0) o) as [t1|] eqn:E1; [|rewrite N in E; discriminate]. apply (IH t1); [|exact E].
    destruct o as [id low high v|id pos|low high amt|h]; cbn [lt_step] in E1.
    - injection E1 as <-. unfold lt_add. pose proof (par_add (lt_next t0) low id (Iv low high v) (lt_root t0) None [] H).
      destruct (ladd _ _ _ _ _ _ _). exact H0.
    - injection E1 as <-. unfold lt_find. pose proof (par_search pos id (lt_root t0) None [] H). destruct (lsearch _ _ _ _). exact H0.
    - unfold lt_remove_and_shift in E1. destruct (lremove_overlaps _ low high None (lt_root t0)) as [r|] eqn:Er; [|discriminate]. injection E1 as <-.
      apply par_overlaps in Er; [|exact H]. cbn [lt_root]. destruct (amt =? 0); [exact Er|]. apply par_shifts. exact Er.
    - injection E1 as <-. unfold lt_pos. pose proof (par_touch h (lt_root t0) None [] H). destruct (ltouch _ _ _). exact H0. }
  intros t. apply K. exact Logic.I.
Qed.
End P.
