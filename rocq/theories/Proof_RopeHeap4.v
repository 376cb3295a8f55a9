(** Programs that use many ropes and byte slices. *)
From Coq Require Import ZArith Lia Permutation.
From Verif Require Import Base Model_Rope Model_RopeHeap Spec_Rope Spec_RopeHeap Proof_Rope Proof_Rope2 Proof_RopeHeap Proof_RopeHeap2 Proof_RopeHeap3.
Local Open Scope nat_scope.

Section Programs.
Variable P : opts -> Prop.
Hypothesis HP : forall o, P o -> splits o.

Definition wleaf (x : option hrope) : list bslice := match x with Some r => leaves r | None => [] end.
Definition wleaves (rs : list (option hrope)) : list bslice := concat (map wleaf rs).
Definition shows (h : bheap) (x : option hrope) (y : option (list byte)) : Prop :=
  match x, y with Some hr, Some t => exists r, rep h hr r /\ wfr P r t | None, None => True | _, _ => False end.
Definition holds (h : bheap) (l : list bslice) (s : bslice) (b : list byte * bool) : Prop :=
  valid h s /\ bread h s = fst b /\ (snd b = false -> ~ In (bs_arr s) (arrs l)).
Record inv (w : rworld) (s : sworld) : Prop := Inv {
  i_ropes : Forall2 (shows (w_heap w)) (w_ropes w) (s_ropes s);
  i_own : own (fun a => In a (arrs (w_bufs w))) (wleaves (w_ropes w));
  i_bufs : Forall2 (holds (w_heap w) (wleaves (w_ropes w))) (w_bufs w) (s_bufs s);
  i_dup : NoDup (arrs (w_bufs w)) }.

Lemma rset_rset : forall A (l : list A) k x y, rset (rset l k x) k y = rset l k y.
Proof. induction l; intros [|k] x y; cbn; auto. f_equal. apply IHl. Qed.
Lemma rget_rset : forall A (l : list (option A)) j k x, j <> k -> rget (rset l j x) k = rget l k.
Proof. unfold rget. induction l; intros [|j] [|k] x N; cbn; auto; try congruence. Qed.
Lemma F2_rset : forall A B (R : A -> B -> Prop) l m k x y, Forall2 R l m -> R x y -> Forall2 R (rset l k x) (rset m k y).
Proof. intros A B R l m k x y F. revert k. induction F; intros [|k] H'; cbn; constructor; auto. Qed.
Lemma F2_nth : forall A B (R : A -> B -> Prop) l m i y, Forall2 R l m -> nth_error m i = Some y -> exists x, nth_error l i = Some x /\ R x y.
Proof. intros A B R l m i y F. revert i. induction F; intros [|i] E; cbn in *; try discriminate; eauto. injection E as <-. eauto. Qed.
Lemma F2_app1 : forall A B (R : A -> B -> Prop) l m x y, Forall2 R l m -> R x y -> Forall2 R (l ++ [x]) (m ++ [y]).
Proof. intros. apply Forall2_app; auto. Qed.
Lemma shows_get : forall h rs ts k t, Forall2 (shows h) rs ts -> rget ts k = Some t -> exists hr r, rget rs k = Some hr /\ rep h hr r /\ wfr P r t.
Proof.
  intros h rs ts k t F E. unfold rget in E. destruct (nth_error ts k) as [y|] eqn:N; [|discriminate]. cbn in E. subst y. destruct (F2_nth _ _ _ _ _ _ _ F N) as (x & Nx & S).
  destruct x as [hr|]; [|destruct S]. destruct S as (r & A & B). exists hr, r. unfold rget. rewrite Nx. auto.
Qed.
Lemma wleaves_app : forall a b, wleaves (a ++ b) = wleaves a ++ wleaves b.
Proof. intros. unfold wleaves. now rewrite map_app, concat_app. Qed.
Lemma wleaves_get : forall rs k hr x, rget rs k = Some hr -> Permutation (wleaves (rset rs k x)) (wleaf x ++ wleaves (rset rs k None)).
Proof.
  unfold rget. induction rs as [|y rs IH]; intros [|k] hr x E; cbn in E; try discriminate; cbn [rset].
  - unfold wleaves. cbn. apply Permutation_refl.
  - unfold wleaves in *. cbn. rewrite (IH k hr x E). rewrite !app_assoc. apply Permutation_app_tail, Permutation_app_comm.
Qed.
Lemma rset_same : forall A (rs : list (option A)) k hr, rget rs k = Some hr -> rset rs k (Some hr) = rs.
Proof. unfold rget. induction rs as [|y rs IH]; intros [|k] hr E; cbn in *; try discriminate; [now subst|]. f_equal. now apply IH. Qed.
Lemma wleaves_out : forall rs k hr, rget rs k = Some hr -> Permutation (wleaves rs) (leaves hr ++ wleaves (rset rs k None)).
Proof. intros rs k hr E. rewrite <- (rset_same _ _ _ _ E) at 1. now apply (wleaves_get rs k hr). Qed.
Lemma in_perm : forall l l' a, Permutation l l' -> In a (arrs l) -> In a (arrs l').
Proof. intros l l' a Pm. unfold arrs. apply Permutation_in. now apply Permutation_map. Qed.

Lemma shows_keeps : forall h h' rs ts, Forall2 (shows h) rs ts -> keeps (fun a => In a (arrs (wleaves rs))) h h' -> Forall2 (shows h') rs ts.
Proof.
  intros h h' rs ts F. induction F as [|x y rs ts S F IH]; intros K; constructor.
  - destruct x, y; auto. destruct S as (r & A & B). exists r. split; [|exact B]. eapply rep_keeps; [exact A|]. eapply keeps_sub; [|exact K]. intros a I.
    unfold arrs, wleaves in *. cbn. rewrite map_app. apply in_or_app. auto.
  - apply IH. eapply keeps_sub; [|exact K]. intros a I. unfold arrs, wleaves in *. cbn. rewrite map_app. apply in_or_app. auto.
Qed.
Lemma shows_old : forall h rs ts, Forall2 (shows h) rs ts -> Forall (fun s => bs_arr s < List.length h) (wleaves rs).
Proof.
  intros h rs ts F. induction F as [|x y rs ts S F IH]; unfold wleaves; cbn; [constructor|]. apply Forall_app. split; [|exact IH].
  destruct x, y; cbn in S; try tauto; [|constructor]. destruct S as (r & A & _). eapply rep_old; eauto.
Qed.
Lemma bufs_below : forall h l bs ss, Forall2 (holds h l) bs ss -> below (fun a => In a (arrs bs)) h.
Proof. intros h l bs ss F. induction F as [|x y bs ss H F IH]; intros a I; cbn in I; [tauto|]. destruct I as [<-|I]; [apply H|now apply IH]. Qed.

(** an operation that changes the leaves [l] to [l'] and leaves the rest [r] alone *)
Lemma bufs_keep : forall h h' l r l' bs ss (U : nat -> Prop), Forall2 (holds h (l ++ r)) bs ss -> (forall a, In a (arrs bs) -> U a) -> keeps (and_arrs U r) h h' -> changed (and_arrs U r) h l l' ->
  Forall2 (holds h' (l' ++ r)) bs ss.
Proof.
  intros h h' l r l' bs ss U F S K C. induction F as [|x y bs ss H F IH]; constructor.
  - destruct H as (V & R & N). assert (Kx : keeps (eq (bs_arr x)) h h').
    { eapply keeps_sub; [|exact K]. intros a <-. left. apply S. cbn. auto. }
    split; [eapply keeps_valid; eauto|]. split; [rewrite (keeps_read _ _ _ V Kx); exact R|]. intros E I. apply (N E). unfold arrs in *. rewrite map_app in *. apply in_app_or in I. apply in_or_app.
    destruct I as [I|I]; [|auto]. apply in_map_iff in I. destruct I as (t & Et & T). destruct C as [_ C]. destruct (C _ T) as [X|X]; [left; unfold arrs in X; now rewrite <- Et|]. destruct V; lia.
  - apply IH. intros a I. apply S. cbn. auto.
Qed.
Lemma holds_perm : forall h l l' bs ss, Permutation l l' -> Forall2 (holds h l) bs ss -> Forall2 (holds h l') bs ss.
Proof.
  intros h l l' bs ss Pm F. induction F as [|x y bs ss H F IH]; constructor; [|exact IH]. destruct H as (V & R & N). split; [exact V|]. split; [exact R|]. intros E I. apply (N E).
  eapply in_perm; [apply Permutation_sym, Pm|exact I].
Qed.

(** the common part of Insert, Remove, SplitAt and Join *)
Lemma inv_change : forall h rs bs ts ss h' l r l' rs' ts', inv (RW h rs bs) (SW ts ss) ->
  Permutation (wleaves rs) (l ++ r) -> Permutation (wleaves rs') (l' ++ r) -> Forall (fun s => bs_arr s < List.length h) r ->
  (let U := and_arrs (fun a => In a (arrs bs)) r in own U l -> below U h -> keeps U h h' /\ changed U h l l') -> Forall2 (shows h') rs' ts' ->
  inv (RW h' rs' bs) (SW ts' ss).
Proof.
  intros h rs bs ts ss h' l r l' rs' ts' [IR IO IB ID] P1 P2 Fr D F. cbn [w_heap w_ropes w_bufs s_ropes s_bufs] in *.
  assert (O : own (fun a => In a (arrs bs)) (l ++ r)) by (eapply own_perm; eauto).
  assert (BL : below (and_arrs (fun a => In a (arrs bs)) r) h).
  { intros a [u|u]; [eapply bufs_below; eauto|]. unfold arrs in u. apply in_map_iff in u. destruct u as (s & <- & S). rewrite Forall_forall in Fr. now apply Fr. }
  destruct (D (part_left _ _ _ O) BL) as [K C].
  constructor; cbn [w_heap w_ropes w_bufs s_ropes s_bufs]; auto.
  - eapply own_perm; [apply Permutation_sym, P2|]. eapply changed_part; eauto.
  - eapply holds_perm; [apply Permutation_sym, P2|]. eapply bufs_keep with (U := fun a => In a (arrs bs)); eauto. eapply holds_perm; eauto.
Qed.

Lemma none_shows : forall h rs ts k, Forall2 (shows h) rs ts -> Forall2 (shows h) (rset rs k None) (rset ts k None).
Proof. intros. apply F2_rset; [assumption|exact Logic.I]. Qed.
Lemma rest_keeps : forall U h h' rs ts, Forall2 (shows h) rs ts -> keeps (and_arrs U (wleaves rs)) h h' -> Forall2 (shows h') rs ts.
Proof. intros U h h' rs ts F K. eapply shows_keeps; [exact F|]. eapply keeps_sub; [|exact K]. unfold and_arrs. auto. Qed.

(** one rope is changed *)
Lemma inv_one : forall h rs bs ts ss k hr t (res : option (bheap * hrope)) r' t', inv (RW h rs bs) (SW ts ss) -> rget rs k = Some hr -> rget ts k = Some t -> wfr P r' t' ->
  (forall U : nat -> Prop, (forall a, In a (arrs bs) -> U a) -> own U (leaves hr) -> below U h -> done U h res (leaves hr) r') ->
  exists h' hr', res = Some (h', hr') /\ inv (RW h' (rset rs k (Some hr')) bs) (SW (rset ts k (Some t')) ss).
Proof.
  intros h rs bs ts ss k hr t res r' t' I G Gt W D. pose proof (none_shows h rs ts k (i_ropes _ _ I)) as N. set (r := wleaves (rset rs k None)) in *.
  assert (O : own (fun a => In a (arrs bs)) (leaves hr ++ r)) by (eapply own_perm; [apply wleaves_out, G|apply (i_own _ _ I)]).
  assert (Fr := shows_old _ _ _ N). fold r in Fr.
  destruct (D (and_arrs (fun a => In a (arrs bs)) r)) as (h' & hr' & E & K & R & C); [unfold and_arrs; auto|now apply part_left| |].
  { intros a [u|u]; [eapply bufs_below; [apply (i_bufs _ _ I)|exact u]|]. unfold arrs in u. apply in_map_iff in u. destruct u as (s & <- & S). rewrite Forall_forall in Fr. now apply Fr. }
  exists h', hr'. split; [exact E|]. eapply inv_change with (l := leaves hr) (r := r) (l' := leaves hr'); eauto.
  - now apply wleaves_out.
  - apply (wleaves_get rs k hr (Some hr') G).
  - pose proof (rest_keeps _ _ _ _ _ N K) as N'. rewrite <- (rset_rset _ rs k None), <- (rset_rset _ ts k None). apply F2_rset; [exact N'|]. cbn. eauto.
Qed.

Lemma F2_in : forall A B (R : A -> B -> Prop) l m x, Forall2 R l m -> In x l -> exists y, R x y.
Proof. intros A B R l m x F. induction F; cbn; [tauto|]. intros [<-|I]; eauto. Qed.

Lemma step_inv : forall w s op s', inv w s -> sees P s op s' -> exists w', w_step w op = Some w' /\ inv w' s'.
Proof.
  intros [h rs bs] s op s' I S. destruct S as [ts ss b|ts ss i b c Ni Lc|ts ss i b l o Ni Po|ts ss k t i v l pos Gt Ni Hp|ts ss k t start en Gt H|ts ss k t i Gt Hi|ts ss j k ta tb Njk Ga Gb]; cbn [w_step].
  - (* a new slice *)
    eexists. split; [reflexivity|]. destruct I as [IR IO IB ID]. cbn [w_heap w_ropes w_bufs s_ropes s_bufs] in *.
    assert (Fr := shows_old _ _ _ IR). assert (G : grows h (h ++ [b])) by apply grows_one. assert (BL := bufs_below _ _ _ _ IB).
    constructor; cbn [w_heap w_ropes w_bufs s_ropes s_bufs].
    + eapply shows_keeps; [exact IR|]. now apply grows_keeps.
    + eapply (own_ext h); [exact IO|exact Fr|]. intros a A. unfold arrs in A. rewrite map_app in A. apply in_app_or in A. destruct A as [A|[<-|[]]]; auto.
    + apply F2_app1.
      * clear -IB G. induction IB as [|x y bs ss H F IH]; constructor; [|exact IH]. destruct H as (V & R & N). split; [eapply grows_valid; eauto|]. split; [rewrite (grows_read _ _ _ V G); exact R|exact N].
      * split; [|split].
        -- unfold valid. cbn [bs_arr bs_off bs_len bs_cap]. rewrite barr_new, app_length. cbn. lia.
        -- cbn [fst]. pose proof (read_mid (h ++ [b]) (List.length h) [] b [] (List.length b) (List.length b)) as R. cbn [List.length app] in R. apply R; [now rewrite barr_new, app_nil_r|reflexivity].
        -- cbn [snd bs_arr]. intros _ A. unfold arrs in A. apply in_map_iff in A. destruct A as (x & E & X). rewrite Forall_forall in Fr. specialize (Fr _ X). lia.
    + unfold arrs. rewrite map_app. cbn. apply NoDup_rev in ID. rewrite <- (rev_involutive (map bs_arr bs ++ [_])). apply NoDup_rev. rewrite rev_app_distr. cbn. constructor; [|exact ID].
      intros A. apply in_rev in A. apply BL in A. lia.
  - (* the program writes its own slice *)
    destruct I as [IR IO IB ID]. cbn [w_heap w_ropes w_bufs s_ropes s_bufs] in *. destruct (F2_nth _ _ _ _ _ _ _ IB Ni) as (x & Nx & V & R & N). rewrite Nx. cbn [obind fst snd] in *.
    pose proof (read_len _ _ V) as L. rewrite R in L. rewrite (proj2 (Nat.eqb_eq _ _)) by lia. eexists. split; [reflexivity|].
    assert (K : keeps (fun a => bs_arr x <> a) h (bput h (bs_arr x) (bs_off x) c)) by apply bput_keeps.
    destruct (arr_parts h x V) as (p & q & Ep & Lp & Lq). pose proof V as (VA & VB & VC).
    assert (Ea : barr (bput h (bs_arr x) (bs_off x) c) (bs_arr x) = p ++ c ++ q) by (rewrite bput_arr, Ep, <- Lp by lia; apply over_mid; rewrite R; lia).
    constructor; cbn [w_heap w_ropes w_bufs s_ropes s_bufs]; auto.
    + eapply shows_keeps; [exact IR|]. eapply keeps_sub; [|exact K]. intros a A Q. rewrite <- Q in A. now apply N.
    + assert (Hx : holds (bput h (bs_arr x) (bs_off x) c) (wleaves rs) x (c, false)).
      { split; [|split].
        - unfold valid. rewrite Ea, !app_length. rewrite Ep, !app_length, R in VC. destruct K. lia.
        - cbn [fst]. destruct x as [xa xo xl xc]. cbn [bs_arr bs_off bs_len bs_cap] in *. rewrite <- Lp in *. eapply read_mid; [exact Ea|lia].
        - cbn [snd]. exact N. }
      clear -IB ID Nx Hx K. revert i Nx. induction IB as [|y z bs ss H F IH]; intros [|i] E; cbn in E; try discriminate; cbn [rset].
      * injection E as ->. constructor; [exact Hx|]. cbn in ID. inversion ID; subst. clear -F H2 K. induction F as [|y z bs ss H F IH]; constructor; [|apply IH; cbn in H2; tauto].
        destruct H as (V & R & N). assert (Ky : keeps (eq (bs_arr y)) h (bput h (bs_arr x) (bs_off x) c)) by (eapply keeps_sub; [|exact K]; intros a <- E; apply H2; cbn; auto).
        split; [eapply keeps_valid; eauto|]. split; [rewrite (keeps_read _ _ _ V Ky); exact R|exact N].
      * cbn in ID. inversion ID; subst. constructor; [|apply IH; auto]. destruct H as (V & R & N).
        assert (Ky : keeps (eq (bs_arr y)) h (bput h (bs_arr x) (bs_off x) c)).
        { eapply keeps_sub; [|exact K]; intros a <- Exy. apply H2. rewrite <- Exy. unfold arrs. apply in_map. eapply nth_error_In; eauto. }
        split; [eapply keeps_valid; eauto|]. split; [rewrite (keeps_read _ _ _ V Ky); exact R|exact N].
  - (* New *)
    pose proof I as [IR IO IB ID]. cbn [w_heap w_ropes w_bufs s_ropes s_bufs] in *. destruct (F2_nth _ _ _ _ _ _ _ IB Ni) as (x & Nx & V & R & N). rewrite Nx. cbn [obind fst snd] in *.
    destruct (new_wf P HP o b Po) as (r & Er & W). rewrite <- R in Er. destruct (new_rep h o x r V Er) as (h' & hr & E & G & Rp & F). rewrite E. cbn [obind]. eexists. split; [reflexivity|].
    assert (Fr := shows_old _ _ _ IR). assert (BL := bufs_below _ _ _ _ IB). assert (Xin : In (bs_arr x) (arrs bs)) by (unfold arrs; apply in_map; eapply nth_error_In; eauto).
    constructor; cbn [w_heap w_ropes w_bufs s_ropes s_bufs]; auto.
    + apply F2_app1; [eapply shows_keeps; [exact IR|]; now apply grows_keeps|]. cbn. eauto.
    + rewrite wleaves_app. unfold wleaves at 2. cbn. rewrite app_nil_r. apply own_app. split.
      * eapply (own_ext h); [exact IO|exact Fr|]. intros a [u|u]; [auto|]. unfold arrs in u. apply in_map_iff in u. destruct u as (t & <- & T). rewrite Forall_forall in F.
        destruct (F _ T) as [_ [->|X]]; auto.
      * apply own_closed. eapply Forall_impl; [|exact F]. cbn beta. tauto.
    + rewrite wleaves_app. unfold wleaves at 2. cbn. rewrite app_nil_r.
      assert (Step : forall y z, holds h (wleaves rs) y z -> (bs_arr y = bs_arr x -> snd z = true) -> holds h' (wleaves rs ++ leaves hr) y z).
      { intros y z (Vy & Ry & Ny) D. split; [eapply grows_valid; eauto|]. split; [rewrite (grows_read _ _ _ Vy G); exact Ry|]. intros Ef A. unfold arrs in A. rewrite map_app in A. apply in_app_or in A.
        destruct A as [A|A]; [now apply Ny|]. apply in_map_iff in A. destruct A as (t & Et & T). rewrite Forall_forall in F. destruct (F _ T) as [_ [X|X]].
        - rewrite D in Ef by congruence. discriminate.
        - destruct Vy. lia. }
      clear -IB ID Nx Ni Step V R. revert i Nx Ni. induction IB as [|y z bs ss H F IH]; intros [|i] E E2; cbn in E, E2; try discriminate; cbn [rset].
      * injection E as ->. injection E2 as ->. cbn in ID. inversion ID; subst. constructor.
        -- apply Step; [|reflexivity]. destruct H as (A & B & C). split; [exact A|]. split; [exact B|]. discriminate.
        -- clear -F H2 Step. induction F as [|y z bs ss H F IH]; constructor; [|apply IH; cbn in H2; tauto]. apply Step; [exact H|]. intros Ey. exfalso. apply H2. cbn. auto.
      * cbn in ID. inversion ID; subst. constructor; [|apply IH; auto]. apply Step; [exact H|]. intros Ey. exfalso. apply H2. rewrite Ey. unfold arrs. apply in_map. eapply nth_error_In; eauto.
  - (* Insert *)
    pose proof I as [IR IO IB ID]. cbn [w_heap w_ropes w_bufs s_ropes s_bufs] in *. destruct (F2_nth _ _ _ _ _ _ _ IB Ni) as (x & Nx & V & R & N). rewrite Nx. cbn [obind fst snd] in *.
    destruct (shows_get _ _ _ _ _ IR Gt) as (hr & r & Gr & Rp & W). rewrite Gr. cbn [obind].
    destruct (insert_wf P HP r t pos v W Hp) as (r' & Er & W'). rewrite <- R in Er.
    destruct (inv_one h rs bs ts ss k hr t (h_insert h hr pos x) r' _ I Gr Gt W') as (h' & hr' & E & I').
    { intros U SU O B. apply insert_rep with (r := r); auto. apply SU. unfold arrs. apply in_map. eapply nth_error_In; eauto. }
    rewrite E. cbn [obind]. eexists. split; [reflexivity|]. exact I'.
  - (* Remove *)
    pose proof I as [IR IO IB ID]. cbn [w_heap w_ropes w_bufs s_ropes s_bufs] in *.
    destruct (shows_get _ _ _ _ _ IR Gt) as (hr & r & Gr & Rp & W). rewrite Gr. cbn [obind].
    destruct (remove_wf P HP r t start en W H) as (r' & Er & W').
    destruct (inv_one h rs bs ts ss k hr t (h_remove h hr start en) r' _ I Gr Gt W') as (h' & hr' & E & I').
    { intros U SU O B. apply remove_rep with (r := r); auto. }
    rewrite E. cbn [obind]. eexists. split; [reflexivity|]. exact I'.
  - (* SplitAt *)
    pose proof I as [IR IO IB ID]. cbn [w_heap w_ropes w_bufs s_ropes s_bufs] in *.
    destruct (shows_get _ _ _ _ _ IR Gt) as (hr & r & Gr & Rp & W). rewrite Gr. cbn [obind].
    destruct (split_wf P HP r t i W Hi) as (x & y & Er & Wx & Wy). pose proof (none_shows h rs ts k IR) as N.
    assert (O : own (fun a => In a (arrs bs)) (leaves hr ++ wleaves (rset rs k None))) by (eapply own_perm; [apply wleaves_out, Gr|exact IO]).
    destruct (split_rep hr r (and_arrs (fun a => In a (arrs bs)) (wleaves (rset rs k None))) h i x y Rp (part_left _ _ _ O) Er) as (h' & a & b & E & G & Ra & Rb & C).
    rewrite E. cbn [obind]. eexists. split; [reflexivity|].
    eapply inv_change with (l := leaves hr) (r := wleaves (rset rs k None)) (l' := leaves a ++ leaves b); eauto.
    + now apply wleaves_out.
    + rewrite wleaves_app. unfold wleaves at 2. cbn. rewrite app_nil_r. apply Permutation_app_comm.
    + eapply shows_old; eauto.
    + cbn. intros _ _. split; [now apply grows_keeps|exact C].
    + apply Forall2_app; [eapply shows_keeps; [exact N|]; now apply grows_keeps|]. constructor; [cbn; eauto|]. constructor; [cbn; eauto|constructor].
  - (* Join *)
    pose proof I as [IR IO IB ID]. cbn [w_heap w_ropes w_bufs s_ropes s_bufs] in *.
    destruct (shows_get _ _ _ _ _ IR Ga) as (ha & ra & Gra & Rpa & Wa). rewrite Gra. cbn [obind]. destruct (shows_get _ _ _ _ _ IR Gb) as (hb & rb & Grb & Rpb & Wb). rewrite Grb. cbn [obind].
    destruct (join_wf P ra rb ta tb Wa Wb) as (r & Er & W). destruct (join_rep _ _ _ _ _ _ Rpa Rpb Er) as (h' & hr & E & G & Rp & M). rewrite E. cbn [obind]. eexists. split; [reflexivity|].
    pose proof (none_shows _ _ _ k (none_shows h rs ts j IR)) as N.
    assert (Grb' : rget (rset rs j None) k = Some hb) by (rewrite rget_rset by exact Njk; exact Grb).
    eapply inv_change with (l := leaves ha ++ leaves hb) (r := wleaves (rset (rset rs j None) k None)) (l' := leaves hr); eauto.
    + rewrite (wleaves_out rs j ha Gra), (wleaves_out _ k hb Grb'), app_assoc. apply Permutation_refl.
    + rewrite wleaves_app. unfold wleaves at 2. cbn. rewrite app_nil_r. apply Permutation_app_comm.
    + eapply shows_old; eauto.
    + intros U O B. split; [now apply grows_keeps|]. eapply changed_from; [apply Nat.le_refl|apply changed_refl, O| |exact M].
      apply Forall_app. split; eapply rep_old; eauto.
    + apply F2_app1; [eapply shows_keeps; [exact N|]; now apply grows_keeps|]. cbn. eauto.
Qed.

Lemma run_inv : forall ops s, seen P ops s -> exists w, w_run ops = Some w /\ inv w s.
Proof.
  intros ops s H. induction H as [|ops op s s' H IH S].
  - eexists. split; [reflexivity|]. constructor; cbn; constructor.
  - destruct IH as (w & E & I). destruct (step_inv _ _ _ _ I S) as (w' & E' & I'). exists w'. split; [|exact I'].
    unfold w_run in *. rewrite fold_left_app, E. cbn. exact E'.
Qed.

Lemma inv_right : forall w s, inv w s ->
  (forall k t, rget (s_ropes s) k = Some t -> w_value w k = Some t) /\ (forall i b l, nth_error (s_bufs s) i = Some (b, l) -> w_buf w i = Some b).
Proof.
  intros w s [IR IO IB ID]. split.
  - intros k t G. destruct (shows_get _ _ _ _ _ IR G) as (hr & r & Gr & Rp & W). unfold w_value. rewrite Gr. cbn [obind].
    destruct (value_rep hr r (w_heap w) t Rp (wfr_value P r t W)) as (h' & s' & Ev & _ & _ & Rv & _). rewrite Ev. cbn. now rewrite Rv.
  - intros i b l N. destruct (F2_nth _ _ _ _ _ _ _ IB N) as (x & Nx & _ & R & _). unfold w_buf. rewrite Nx. cbn [obind]. now rewrite R.
Qed.
Theorem run_right : forall ops s, seen P ops s -> exists w, w_run ops = Some w /\
  (forall k t, rget (s_ropes s) k = Some t -> w_value w k = Some t) /\ (forall i b l, nth_error (s_bufs s) i = Some (b, l) -> w_buf w i = Some b).
Proof. intros ops s H. destruct (run_inv ops s H) as (w & E & I). exists w. split; [exact E|]. now apply inv_right. Qed.
End Programs.

Theorem take_right : forall c ops s k t p q, seen (line_ends c) ops s -> rget (s_ropes s) k = Some t -> p <= q <= List.length t ->
  exists w w', w_run ops = Some w /\ w_step w (WTake k (loc_of c (firstn p t)) (loc_of c (firstn q t))) = Some w' /\ w_buf w' (List.length (w_bufs w)) = Some (firstn (q - p) (skipn p t)).
Proof.
  intros c ops s k t p q H G L. destruct (run_inv (line_ends c) (fun _ h => proj1 h) ops s H) as ([h rs bs] & E & [IR IO IB ID]).
  destruct (shows_get _ _ _ _ _ _ IR G) as (hr & r & Gr & Rp & W). cbn [w_heap w_ropes w_bufs] in *.
  pose proof (wf_slice_lc c r t p q W L) as Es. destruct (slice_lc_rep hr r h _ _ _ Rp Es) as (h' & x & E1 & G1 & V1 & R1 & _).
  eexists _, _. split; [exact E|]. cbn [w_step]. rewrite Gr. cbn [obind]. rewrite E1. cbn [obind]. split; [reflexivity|]. unfold w_buf. cbn [w_heap w_bufs].
  rewrite nth_error_app2, Nat.sub_diag by lia. cbn. now rewrite R1.
Qed.

(** a part of one rope is inserted into another *)
Theorem copy_right : forall c ops s j k t u p q pos, seen (line_ends c) ops s -> rget (s_ropes s) j = Some t -> rget (s_ropes s) k = Some u -> j <> k ->
  p <= q <= List.length t -> pos <= List.length u ->
  exists w w', w_run ops = Some w /\ w_run (ops ++ [WTake j (loc_of c (firstn p t)) (loc_of c (firstn q t)); WInsert k pos (List.length (w_bufs w))]) = Some w' /\
    (forall i x, rget (rset (s_ropes s) k (Some (firstn pos u ++ firstn (q - p) (skipn p t) ++ skipn pos u))) i = Some x -> w_value w' i = Some x) /\
    (forall i b l, nth_error (s_bufs s) i = Some (b, l) -> w_buf w' i = Some b).
Proof.
  intros c ops s j k t u p q pos H Gt Gu Njk L Lp. set (P := line_ends c) in *. assert (HP : forall o, P o -> splits o) by (intros o [? _]; assumption).
  destruct (run_inv P HP ops s H) as ([h rs bs] & E & I). pose proof I as [IR IO IB ID]. cbn [w_heap w_ropes w_bufs] in *.
  destruct (shows_get _ _ _ _ _ _ IR Gt) as (hj & rj & Gj & Rj & Wj). destruct (shows_get _ _ _ _ _ _ IR Gu) as (hk & rk & Gk & Rk & Wk).
  pose proof (wf_slice_lc c rj t p q Wj L) as Es. destruct (slice_lc_rep hj rj h _ _ _ Rj Es) as (h1 & x & E1 & G1 & V1 & R1 & A1).
  exists (RW h rs bs). cbn [w_bufs].
  (* the memory after the slice was taken *)
  destruct s as [ts ss]. cbn [s_ropes s_bufs] in *.
  assert (I1 : inv P (RW h1 rs bs) (SW ts ss)).
  { constructor; cbn [w_heap w_ropes w_bufs s_ropes s_bufs]; auto.
    - eapply shows_keeps; [exact IR|]. now apply grows_keeps.
    - clear -IB G1. induction IB as [|y z bs ss H F IH]; constructor; [|exact IH]. destruct H as (V & R & N). split; [eapply grows_valid; eauto|]. split; [rewrite (grows_read _ _ _ V G1); exact R|exact N]. }
  destruct (insert_wf P HP rk u pos (bread h1 x) Wk Lp) as (r' & Er & W').
  pose proof (none_shows P h1 rs ts k (i_ropes _ _ _ I1)) as N. set (rest := wleaves (rset rs k None)) in *.
  assert (Fr := shows_old _ _ _ _ N). fold rest in Fr.
  assert (O : own (fun a => In a (arrs bs)) (leaves hk ++ rest)) by (eapply own_perm; [apply wleaves_out, Gk|exact IO]).
  set (U := fun a => and_arrs (fun a => In a (arrs bs)) rest a \/ a = bs_arr x).
  assert (Gj' : rget (rset rs k None) j = Some hj) by (rewrite rget_rset by congruence; exact Gj).
  assert (OU : own U (leaves hk)).
  { eapply (own_ext h); [apply part_left, O|eapply rep_old; exact Rk|]. intros a [a1| ->]; [auto|]. destruct A1 as [A1|A1]; [|auto]. left. right.
    eapply in_perm; [apply Permutation_sym, wleaves_out, Gj'|]. unfold arrs in *. rewrite map_app. apply in_or_app. auto. }
  destruct (insert_rep hk rk U h1 pos x r' (rep_grows _ _ _ _ Rk G1) OU V1 (or_intror eq_refl) Er) as (h2 & hk2 & E2 & K2 & R2 & [O2 C2]).
  assert (SU : forall a, and_arrs (fun a => In a (arrs bs)) rest a -> U a) by (unfold U; auto).
  assert (I2 : inv P (RW h2 (rset rs k (Some hk2)) bs) (SW (rset ts k (Some (firstn pos u ++ bread h1 x ++ skipn pos u))) ss)).
  { eapply inv_change with (l := leaves hk) (r := rest) (l' := leaves hk2); [exact I1| | | | |].
    - now apply wleaves_out.
    - apply (wleaves_get rs k hk (Some hk2) Gk).
    - exact Fr.
    - cbv zeta. intros _ _. split; [eapply keeps_sub; [|exact K2]; exact SU|]. split; [eapply own_sub; [|exact O2]; exact SU|exact C2].
    - assert (K3 : keeps (and_arrs (fun a => In a (arrs bs)) rest) h1 h2) by (eapply keeps_sub; [|exact K2]; exact SU).
      pose proof (rest_keeps P _ _ _ _ _ N K3) as N'. rewrite <- (rset_rset _ rs k None), <- (rset_rset _ ts k None). apply F2_rset; [exact N'|]. cbn. eauto. }
  destruct (inv_right _ _ _ I2) as [Q1 Q2]. cbn [s_ropes s_bufs] in *. rewrite R1 in Q1.
  exists (RW h2 (rset rs k (Some hk2)) (bs ++ [x])). split; [exact E|]. split; [|split; [exact Q1|]].
  - unfold w_run in *. rewrite fold_left_app, E. cbn [fold_left obind w_step]. rewrite Gj. cbn [obind]. rewrite E1. cbn [obind w_step].
    rewrite nth_error_app2, Nat.sub_diag by lia. cbn [nth_error obind]. rewrite Gk. cbn [obind]. rewrite E2. reflexivity.
  - intros i b l Ni. specialize (Q2 i b l Ni). unfold w_buf in *. cbn [w_bufs w_heap] in *. destruct (nth_error bs i) eqn:Nb; [|discriminate]. rewrite nth_error_app1 by (apply nth_error_Some; congruence). rewrite Nb. exact Q2.
Qed.
