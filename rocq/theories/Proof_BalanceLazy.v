(** Lazy interval trees: adding and removing keep a tree balanced. *)
From Coq Require Import ZArith Lia.
From Verif Require Import Base Model_Interval Spec_Interval Model_Lazy Spec_BalanceLazy.

Section P.
Context {V : Type}.
Notation ltree := (ltree V).
Notation lnode := (lnode V).
Notation lztree := (lztree V).
Notation iop := (iop V).

Definition lavl (t : ltree) : Prop := lbalanced t /\ lheights t.

Lemma lapply_height : forall ss (n : lnode), ln_height (lapply ss n) = ln_height n.
Proof.
  induction ss as [|[idx amt] ss IH]; intro n; [reflexivity|]. unfold lapply in *. cbn [fold_left]. rewrite IH.
  unfold lshift_node. destruct (_ <=? _)%Z; [|reflexivity]. destruct (_ <=? _)%Z; reflexivity.
Qed.
Lemma lheight_depth : forall t : ltree, lheights t -> lheight t = ldepth t.
Proof. intros [|n l r] H; [reflexivity|]. exact (proj1 H). Qed.
Lemma add_shifts_depth : forall ss (t : ltree), ldepth (add_shifts ss t) = ldepth t.
Proof. intros ss [|n l r]; reflexivity. Qed.
Lemma add_shifts_avl : forall ss (t : ltree), lavl t -> lavl (add_shifts ss t).
Proof. intros ss [|n l r] H; exact H. Qed.
Lemma with_parent_depth : forall p (t : ltree), ldepth (with_parent p t) = ldepth t.
Proof. intros p [|n l r]; reflexivity. Qed.
Lemma with_parent_avl : forall p (t : ltree), lavl t -> lavl (with_parent p t).
Proof. intros p [|n l r] H; exact H. Qed.
Lemma push_depth : forall t : ltree, ldepth (push t) = ldepth t.
Proof. intros [|n l r]; [reflexivity|]. cbn [push ldepth]. rewrite !add_shifts_depth. reflexivity. Qed.
Lemma push_avl : forall t : ltree, lavl t -> lavl (push t).
Proof.
  intros [|n l r] H; [exact H|]. destruct H as [(B1 & B2 & B3 & B4) (H1 & H2 & H3)]. unfold lavl. cbn [push lbalanced lheights ldepth] in *.
  rewrite !add_shifts_depth. destruct (add_shifts_avl (ln_sh n) l (conj B3 H2)) as [A1 A2]. destruct (add_shifts_avl (ln_sh n) r (conj B4 H3)) as [A3 A4].
  cbn [ln_height lset_sh]. rewrite lapply_height. repeat split; auto.
Qed.

(** the shape after a rotation *)
Lemma lrotate_left_shape : forall p (n : lnode) l m rl rr, lavl l -> lavl rl -> lavl rr ->
  exists n' m' l' rl' rr', lrotate_left p (LNode n l (LNode m rl rr)) = Some (LNode m' (LNode n' l' rl') rr') /\
    lavl l' /\ lavl rl' /\ lavl rr' /\ ldepth l' = ldepth l /\ ldepth rl' = ldepth rl /\ ldepth rr' = ldepth rr /\
    ln_height n' = S (Nat.max (ldepth l) (ldepth rl)) /\ ln_height m' = S (Nat.max (S (Nat.max (ldepth l) (ldepth rl))) (ldepth rr)).
Proof.
  intros p n l m rl rr A B C. unfold lrotate_left. cbn [push add_shifts].
  do 5 eexists. split; [reflexivity|].
  assert (A' := add_shifts_avl (ln_sh n) l A).
  assert (B' : lavl (with_parent (Some (ln_ref (lset_sh [] (lapply (ln_sh n) n)))) (add_shifts (ln_sh (lset_sh (ln_sh m ++ ln_sh n) m)) rl))) by (apply with_parent_avl, add_shifts_avl, B).
  assert (C' := add_shifts_avl (ln_sh (lset_sh (ln_sh m ++ ln_sh n) m)) rr C).
  split; [exact A'|]. split; [exact B'|]. split; [exact C'|].
  rewrite with_parent_depth, !add_shifts_depth. split; [reflexivity|]. split; [reflexivity|]. split; [reflexivity|].
  cbn [ln_height lrefit lupdate_max lset_max lset_height lheight].
  rewrite (lheight_depth _ (proj2 A')), (lheight_depth _ (proj2 B')), (lheight_depth _ (proj2 C')), with_parent_depth, !add_shifts_depth. auto.
Qed.
Lemma lrotate_right_shape : forall p (n : lnode) r m ll lr, lavl r -> lavl ll -> lavl lr ->
  exists n' m' r' ll' lr', lrotate_right p (LNode n (LNode m ll lr) r) = Some (LNode m' ll' (LNode n' lr' r')) /\
    lavl r' /\ lavl ll' /\ lavl lr' /\ ldepth r' = ldepth r /\ ldepth ll' = ldepth ll /\ ldepth lr' = ldepth lr /\
    ln_height n' = S (Nat.max (ldepth lr) (ldepth r)) /\ ln_height m' = S (Nat.max (ldepth ll) (S (Nat.max (ldepth lr) (ldepth r)))).
Proof.
  intros p n r m ll lr A B C. unfold lrotate_right. cbn [push add_shifts].
  do 5 eexists. split; [reflexivity|].
  assert (A' := add_shifts_avl (ln_sh n) r A).
  assert (C' : lavl (with_parent (Some (ln_ref (lset_sh [] (lapply (ln_sh n) n)))) (add_shifts (ln_sh (lset_sh (ln_sh m ++ ln_sh n) m)) lr))) by (apply with_parent_avl, add_shifts_avl, C).
  assert (B' := add_shifts_avl (ln_sh (lset_sh (ln_sh m ++ ln_sh n) m)) ll B).
  split; [exact A'|]. split; [exact B'|]. split; [exact C'|].
  rewrite with_parent_depth, !add_shifts_depth. split; [reflexivity|]. split; [reflexivity|]. split; [reflexivity|].
  cbn [ln_height lrefit lupdate_max lset_max lset_height lheight].
  rewrite (lheight_depth _ (proj2 A')), (lheight_depth _ (proj2 B')), (lheight_depth _ (proj2 C')), with_parent_depth, !add_shifts_depth. auto.
Qed.

Lemma lrebalance_avl : forall p (n : lnode) l r, lavl l -> lavl r -> ldepth l <= 2 + ldepth r -> ldepth r <= 2 + ldepth l ->
  lavl (lrebalance p (LNode n l r)) /\ Nat.max (ldepth l) (ldepth r) <= ldepth (lrebalance p (LNode n l r)) <= S (Nat.max (ldepth l) (ldepth r)) /\
  (ldepth l <= S (ldepth r) -> ldepth r <= S (ldepth l) -> ldepth (lrebalance p (LNode n l r)) = S (Nat.max (ldepth l) (ldepth r))).
Proof.
  intros p n l r [Bl Hl] [Br Hr] D1 D2. unfold lrebalance. rewrite (lheight_depth l Hl), (lheight_depth r Hr).
  set (n0 := lrefit n l r).
  assert (E0 : ln_height n0 = S (Nat.max (ldepth l) (ldepth r))).
  { unfold n0. cbn [ln_height lrefit lupdate_max lset_max lset_height]. rewrite (lheight_depth l Hl), (lheight_depth r Hr). reflexivity. }
  clearbody n0. destruct (Nat.eqb_spec (ldepth r) (ldepth l + 2)) as [Q|Q].
  - destruct r as [|m rl rr]; [cbn in Q; lia|]. cbn [lbalanced lheights] in Br, Hr. destruct Br as (B1 & B2 & B3 & B4). destruct Hr as (H1 & H2 & H3).
    cbn [lheight_left lheight_right]. rewrite (lheight_depth rl H2), (lheight_depth rr H3). cbn [ldepth] in Q, D1, D2 |- *.
    destruct (Nat.ltb_spec (ldepth rr) (ldepth rl)) as [K|K].
    + destruct rl as [|m2 a b]; [cbn in K; lia|]. cbn [lbalanced lheights] in B3, H2. destruct B3 as (C1 & C2 & C3 & C4). destruct H2 as (G1 & G2 & G3).
      destruct (lrotate_right_shape (Some (ln_ref n0)) m rr m2 a b (conj B4 H3) (conj C3 G2) (conj C4 G3)) as (x & y & r' & a' & b' & E1 & [Ar Ar'] & [Aa Aa'] & [Ab Ab'] & Dr & Da & Db & E2 & E3). rewrite E1. cbn [lor_self].
      destruct (lrotate_left_shape p n0 l y a' (LNode x b' r') (conj Bl Hl) (conj Aa Aa')) as (x2 & y2 & l2 & a2 & r2 & F1 & [Al Al'] & [Aa2 Aa2'] & [Ar2 Ar2'] & Dl2 & Da2 & Dr2 & F2 & F3).
      { split; cbn [lbalanced lheights ldepth] in *; repeat split; auto; lia. }
      rewrite F1. cbn [lor_self]. cbn [ldepth] in *. unfold lavl. cbn [lbalanced lheights ldepth]. repeat split; auto; lia.
    + destruct (lrotate_left_shape p n0 l m rl rr (conj Bl Hl) (conj B3 H2) (conj B4 H3)) as (x & y & l2 & a2 & r2 & F1 & [Al Al'] & [Aa2 Aa2'] & [Ar2 Ar2'] & Dl2 & Da2 & Dr2 & F2 & F3). rewrite F1. cbn [lor_self].
      unfold lavl. cbn [lbalanced lheights ldepth]. repeat split; auto; lia.
  - destruct (Nat.eqb_spec (ldepth l) (ldepth r + 2)) as [Q'|Q'].
    + destruct l as [|m ll lr]; [cbn in Q'; lia|]. cbn [lbalanced lheights] in Bl, Hl. destruct Bl as (B1 & B2 & B3 & B4). destruct Hl as (H1 & H2 & H3).
      cbn [lheight_left lheight_right]. rewrite (lheight_depth ll H2), (lheight_depth lr H3). cbn [ldepth] in Q, Q', D1, D2 |- *.
      destruct (Nat.ltb_spec (ldepth ll) (ldepth lr)) as [K|K].
      * destruct lr as [|m2 a b]; [cbn in K; lia|]. cbn [lbalanced lheights] in B4, H3. destruct B4 as (C1 & C2 & C3 & C4). destruct H3 as (G1 & G2 & G3).
        destruct (lrotate_left_shape (Some (ln_ref n0)) m ll m2 a b (conj B3 H2) (conj C3 G2) (conj C4 G3)) as (x & y & l' & a' & b' & E1 & [Al Al'] & [Aa Aa'] & [Ab Ab'] & Dl & Da & Db & E2 & E3). rewrite E1. cbn [lor_self].
        destruct (lrotate_right_shape p n0 r y (LNode x l' a') b' (conj Br Hr)) as (x2 & y2 & r2 & l2 & b2 & F1 & [Ar Ar'] & [Al2 Al2'] & [Ab2 Ab2'] & Dr2 & Dl2 & Db2 & F2 & F3).
        { split; cbn [lbalanced lheights ldepth] in *; repeat split; auto; lia. }
        { split; assumption. }
        rewrite F1. cbn [lor_self]. cbn [ldepth] in *. unfold lavl. cbn [lbalanced lheights ldepth]. repeat split; auto; lia.
      * destruct (lrotate_right_shape p n0 r m ll lr (conj Br Hr) (conj B3 H2) (conj B4 H3)) as (x2 & y2 & r2 & l2 & b2 & F1 & [Ar Ar'] & [Al2 Al2'] & [Ab2 Ab2'] & Dr2 & Dl2 & Db2 & F2 & F3). rewrite F1. cbn [lor_self].
        unfold lavl. cbn [lbalanced lheights ldepth]. repeat split; auto; lia.
    + unfold lavl. cbn [lbalanced lheights ldepth]. repeat split; auto; lia.
Qed.

Lemma ladd_avl : forall ref pos id v (t : ltree) p ss, lavl t ->
  lavl (fst (ladd ref pos id v p ss t)) /\ ldepth t <= ldepth (fst (ladd ref pos id v p ss t)) <= S (ldepth t).
Proof.
  intros ref pos id v. induction t as [|n l IHl r IHr]; intros p ss [B H].
  - cbn. split; [|lia]. split; cbn; lia || tauto.
  - cbn [lbalanced lheights] in B, H. destruct B as (B1 & B2 & B3 & B4). destruct H as (H1 & H2 & H3).
    cbn [ladd]. set (s := ln_sh n ++ ss). set (n0 := lset_sh [] (lapply s n)).
    pose proof (add_shifts_avl s l (conj B3 H2)) as Sl. pose proof (add_shifts_avl s r (conj B4 H3)) as Sr.
    pose proof (add_shifts_depth s l) as Dsl. pose proof (add_shifts_depth s r) as Dsr.
    destruct (key_compare pos id (ln_pos n0) (ln_id n0)).
    + cbn [fst]. destruct (lrebalance_avl p (lset_ins (ln_ins n0 ++ [v]) n0) _ _ Sl Sr) as (A & _ & E); [lia|lia|]. split; [exact A|]. rewrite E by lia. cbn [ldepth]. lia.
    + specialize (IHl (Some (ln_ref n0)) s (conj B3 H2)). destruct (ladd ref pos id v (Some (ln_ref n0)) s l) as [l' h]. cbn [fst] in IHl |- *. destruct IHl as [Al Dl].
      destruct (lrebalance_avl p n0 l' _ Al Sr) as (A & D & E); [lia|lia|]. split; [exact A|]. cbn [ldepth]. lia.
    + specialize (IHr (Some (ln_ref n0)) s (conj B4 H3)). destruct (ladd ref pos id v (Some (ln_ref n0)) s r) as [r' h]. cbn [fst] in IHr |- *. destruct IHr as [Ar Dr].
      destruct (lrebalance_avl p n0 _ r' Sl Ar) as (A & D & E); [lia|lia|]. split; [exact A|]. cbn [ldepth]. lia.
Qed.

Lemma lrebalance_self : forall p (t : ltree), lavl t -> lavl (lrebalance p t) /\ ldepth (lrebalance p t) = ldepth t.
Proof.
  intros p [|n l r] [B H]; [split; [split; exact Logic.I|reflexivity]|]. cbn [lbalanced lheights] in B, H.
  destruct (lrebalance_avl p n l r) as (A & _ & E); [split; tauto|split; tauto|lia|lia|]. split; [exact A|]. rewrite E by lia. reflexivity.
Qed.

Lemma lremove_avl : forall (t : ltree) pos id p ss, lavl t ->
  lavl (lremove pos id p ss t) /\ ldepth (lremove pos id p ss t) <= ldepth t <= S (ldepth (lremove pos id p ss t)).
Proof.
  induction t as [|n l IHl r IHr]; intros pos id p ss [B H].
  - cbn. split; [split; exact Logic.I|lia].
  - cbn [lbalanced lheights] in B, H. destruct B as (B1 & B2 & B3 & B4). destruct H as (H1 & H2 & H3).
    cbn [lremove]. set (s := ln_sh n ++ ss). set (n0 := lset_sh [] (lapply s n)).
    pose proof (add_shifts_avl s l (conj B3 H2)) as Sl. pose proof (add_shifts_avl s r (conj B4 H3)) as Sr.
    pose proof (add_shifts_depth s l) as Dsl. pose proof (add_shifts_depth s r) as Dsr.
    destruct (key_compare pos id (ln_pos n0) (ln_id n0)).
    + destruct l as [|nl ll lr], r as [|nr rl rr].
      * cbn. split; [split; exact Logic.I|lia].
      * destruct (lrebalance_self p (with_parent p (push (add_shifts s (LNode nr rl rr))))) as [A E]; [apply with_parent_avl, push_avl, Sr|].
        split; [exact A|]. rewrite E, with_parent_depth, push_depth, add_shifts_depth. cbn [ldepth] in *. lia.
      * destruct (lrebalance_self p (with_parent p (push (add_shifts s (LNode nl ll lr))))) as [A E]; [apply with_parent_avl, push_avl, Sl|].
        split; [exact A|]. rewrite E, with_parent_depth, push_depth, add_shifts_depth. cbn [ldepth] in *. lia.
      * set (m := lsmallest s nr rl). set (n1 := lset_parent p (ltake m n0)).
        destruct (IHr (ln_pos m) (ln_id m) (Some (ln_ref (ltake m n0))) s (conj B4 H3)) as [Ar Dr].
        pose proof (push_avl _ Sl) as Al. pose proof (push_depth (add_shifts s (LNode nl ll lr))) as Dl. rewrite Dsl in Dl.
        set (l' := push (add_shifts s (LNode nl ll lr))) in *. set (r' := lremove (ln_pos m) (ln_id m) (Some (ln_ref (ltake m n0))) s (LNode nr rl rr)) in *. clearbody l' r'.
        set (dl := ldepth (LNode nl ll lr)) in *. set (dr := ldepth (LNode nr rl rr)) in *.
        destruct (lrebalance_avl p n1 l' r' Al Ar) as (A & D & E); [lia|lia|].
        split; [exact A|]. change (ldepth (LNode n (LNode nl ll lr) (LNode nr rl rr))) with (S (Nat.max dl dr)). clearbody dl dr. lia.
    + destruct (IHl pos id (Some (ln_ref n0)) s (conj B3 H2)) as [Al Dl]. destruct (lrebalance_avl p (lset_parent p n0) _ _ Al Sr) as (A & D & E); [lia|lia|]. split; [exact A|]. cbn [ldepth]. lia.
    + destruct (IHr pos id (Some (ln_ref n0)) s (conj B4 H3)) as [Ar Dr]. destruct (lrebalance_avl p (lset_parent p n0) _ _ Sl Ar) as (A & D & E); [lia|lia|]. split; [exact A|]. cbn [ldepth]. lia.
Qed.

(** looking does not change the shape *)
Lemma node_avl : forall (n m : lnode) (l l' r r' : ltree), ln_height m = ln_height n -> ldepth l' = ldepth l -> ldepth r' = ldepth r ->
  (lavl l -> lavl l') -> (lavl r -> lavl r') -> ldepth (LNode m l' r') = ldepth (LNode n l r) /\ (lavl (LNode n l r) -> lavl (LNode m l' r')).
Proof.
  intros n m l l' r r' E D1 D2 A1 A2. unfold lavl in *. cbn [ldepth lbalanced lheights]. rewrite D1, D2, E. split; [reflexivity|]. tauto.
Qed.
Lemma lsearch_avl : forall pos id (t : ltree) ss, ldepth (fst (lsearch pos id ss t)) = ldepth t /\ (lavl t -> lavl (fst (lsearch pos id ss t))).
Proof.
  intros pos id. induction t as [|n l IHl r IHr]; intro ss; [auto|]. cbn [lsearch]. set (s := ln_sh n ++ ss). set (n0 := lset_sh [] (lapply s n)).
  assert (E : ln_height n0 = ln_height n) by apply lapply_height. destruct (IHl s) as [D1 A1]. destruct (IHr s) as [D2 A2].
  destruct (key_compare pos id (ln_pos n0) (ln_id n0)).
  - cbn [fst]. apply node_avl; auto using add_shifts_depth, add_shifts_avl.
  - destruct (lsearch pos id s l) as [l' h]. cbn [fst] in *. apply node_avl; auto using add_shifts_depth, add_shifts_avl.
  - destruct (lsearch pos id s r) as [r' h]. cbn [fst] in *. apply node_avl; auto using add_shifts_depth, add_shifts_avl.
Qed.
Lemma ltouch_avl : forall h (t : ltree) ss, ldepth (fst (ltouch h ss t)) = ldepth t /\ (lavl t -> lavl (fst (ltouch h ss t))).
Proof.
  intro h. induction t as [|n l IHl r IHr]; intro ss; [auto|]. cbn [ltouch]. set (s := ln_sh n ++ ss). set (n0 := lset_sh [] (lapply s n)).
  assert (E : ln_height n0 = ln_height n) by apply lapply_height. destruct (IHl s) as [D1 A1]. destruct (IHr s) as [D2 A2].
  destruct (ln_iv n =? h)%nat; [|destruct (lhas h l); [|destruct (lhas h r)]].
  - cbn [fst]. apply node_avl; auto using add_shifts_depth, add_shifts_avl.
  - destruct (ltouch h s l) as [l' x]. cbn [fst] in *. apply node_avl; auto using add_shifts_depth, add_shifts_avl.
  - destruct (ltouch h s r) as [r' x]. cbn [fst] in *. apply node_avl; auto using add_shifts_depth, add_shifts_avl.
  - cbn [fst]. split; [apply (add_shifts_depth ss (LNode n l r))|apply (add_shifts_avl ss (LNode n l r))].
Qed.

Lemma lstep_avl : forall (t : lztree) (o : iop), ~ is_shift o -> lavl (lt_root t) -> exists t', lt_step (Some t) o = Some t' /\ lavl (lt_root t').
Proof.
  intros t [id low high v|id pos|low high amt|h] N A; cbn [lt_step]; [| |destruct (N Logic.I)|]; eexists; (split; [reflexivity|]).
  - unfold lt_add. pose proof (ladd_avl (lt_next t) low id (Iv low high v) (lt_root t) None [] A) as [K _]. destruct (ladd _ _ _ _ _ _ _). exact K.
  - unfold lt_find. pose proof (proj2 (lsearch_avl pos id (lt_root t) []) A) as K. destruct (lsearch _ _ _ _). exact K.
  - unfold lt_pos. pose proof (proj2 (ltouch_avl h (lt_root t) []) A) as K. destruct (ltouch _ _ _). exact K.
Qed.

Theorem lrun_balanced : forall (tr : list iop) t, Forall (fun o => ~ is_shift o) tr -> lt_run tr = Some t -> lavl (lt_root t).
Proof.
  intros tr t F. unfold lt_run.
  assert (G : forall tr (t0 t : lztree), Forall (fun o => ~ is_shift o) tr -> lavl (lt_root t0) -> fold_left lt_step tr (Some t0) = Some t -> lavl (lt_root t)).
  { induction tr0 as [|o tr0 IH]; intros t0 t1 F0 A E; [cbn in E; congruence|]. inversion F0; subst. cbn [fold_left] in E.
    destruct (lstep_avl t0 o H1 A) as (t' & E1 & A'). rewrite E1 in E. eapply IH; eassumption. }
  apply G; [exact F|]. split; exact Logic.I.
Qed.

Lemma ldepth_size : forall t : ltree, lbalanced t -> 2 ^ ldepth t <= (lsize t + 1) * (lsize t + 1).
Proof.
  induction t as [|n l IHl r IHr]; intro B; [cbn; lia|]. cbn [lbalanced] in B. destruct B as (B1 & B2 & B3 & B4).
  specialize (IHl B3). specialize (IHr B4). cbn [ldepth lsize].
  destruct (Nat.max_spec (ldepth l) (ldepth r)) as [[C M]|[C M]]; rewrite M.
  - assert (ldepth r = S (ldepth l)) by lia. rewrite H in *. rewrite !Nat.pow_succ_r' in *. nia.
  - destruct (Nat.eq_dec (ldepth l) (ldepth r)) as [E|E].
    + rewrite E in *. rewrite Nat.pow_succ_r'. nia.
    + assert (ldepth l = S (ldepth r)) by lia. rewrite H in *. rewrite !Nat.pow_succ_r' in *. nia.
Qed.
Lemma ladd_balanced : forall (t : lztree) id low high v, lbalanced (lt_root t) -> lheights (lt_root t) ->
  lbalanced (lt_root (fst (lt_add t id low high v))) /\ lheights (lt_root (fst (lt_add t id low high v))).
Proof.
  intros t id low high v B H. unfold lt_add. pose proof (ladd_avl (lt_next t) low id (Iv low high v) (lt_root t) None [] (conj B H)) as [K _].
  destruct (ladd _ _ _ _ _ _ _). exact K.
Qed.
End P.
