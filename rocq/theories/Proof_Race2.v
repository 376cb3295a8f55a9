(** Proofs for Model_Race, continued: goroutines that ask different handles do not disturb each other. *)
From Coq Require Import ZArith Lia List.
From Verif Require Import Base Model_Interval Spec_Interval Model_Detach Model_Race Proof_Interval Proof_Interval2 Proof_Interval3 Proof_Interval4 Proof_Detach Proof_Race.
Local Open Scope Z_scope.

(** ** Programs that only rely on the nodes that they own *)
Definition agree (H : nat -> Prop) (m m' : memory) : Prop := forall r f, H r -> m r f = m' r f.
Inductive good {A} (H : nat -> Prop) (Q : A -> memory -> Prop) : prog A -> memory -> Prop :=
| good_ret a m : Q a m -> good H Q (Ret a) m
| good_own r f k m : H r -> good H Q (k (m r f)) m -> good H Q (Rd r f k) m
| good_any r f k m : (forall v, good H Q (k v) m) -> good H Q (Rd r f k) m
| good_wr r f v k m : H r -> good H Q k (put m r f v) -> good H Q (Wr r f v k) m.

Lemma good_bind : forall {A B} H (Q : B -> memory -> Prop) (p : prog A) (q : A -> prog B) m, good H (fun a m => good H Q (q a) m) p m -> good H Q (pbind p q) m.
Proof. intros A B H Q p q m G. induction G; cbn [pbind]; [assumption|apply good_own; assumption|apply good_any; assumption|apply good_wr; assumption]. Qed.
Lemma good_weaken : forall {A} H (Q Q' : A -> memory -> Prop) p m, good H Q p m -> (forall a m, Q a m -> Q' a m) -> good H Q' p m.
Proof. intros A H Q Q' p m G I. induction G; [apply good_ret; auto|apply good_own; assumption|apply good_any; assumption|apply good_wr; assumption]. Qed.
Lemma field_eqb_spec : forall f g, field_eqb f g = true <-> f = g.
Proof.
  intros [| | |k|k] [| | |j|j]; cbn; (split; [intro E; try discriminate; try reflexivity|intro E; try discriminate; try reflexivity]);
    try (apply Nat.eqb_eq in E; congruence); injection E as ->; apply Nat.eqb_refl.
Qed.
Lemma put_same : forall m r f v, put m r f v r f = v.
Proof. intros. unfold put. rewrite Nat.eqb_refl, (proj2 (field_eqb_spec f f) eq_refl). reflexivity. Qed.
Lemma put_field : forall m r f v f', f' <> f -> put m r f v r f' = m r f'.
Proof. intros m r f v f' N. unfold put. rewrite Nat.eqb_refl. destruct (field_eqb f' f) eqn:E; [apply field_eqb_spec in E; congruence|reflexivity]. Qed.
Lemma put_other : forall m r f v r' f', r' <> r -> put m r f v r' f' = m r' f'.
Proof. intros m r f v r' f' N. unfold put. rewrite (proj2 (Nat.eqb_neq _ _) N). reflexivity. Qed.
Lemma agree_put : forall H m m' r f v, agree H m m' -> agree H (put m r f v) (put m' r f v).
Proof. intros H m m' r f v A r' f' Hr. unfold put. destruct (_ && _)%bool; [reflexivity|apply A; exact Hr]. Qed.
Lemma good_agree : forall {A} H (Q : A -> memory -> Prop) p m, (forall a m m', agree H m m' -> Q a m -> Q a m') -> good H Q p m -> forall m', agree H m m' -> good H Q p m'.
Proof.
  intros A H Q p m S G. induction G; intros m' Ag.
  - apply good_ret. eapply S; eassumption.
  - apply good_own; [assumption|]. rewrite <- (Ag r f H0). apply IHG. exact Ag.
  - apply good_any. intro v. apply H1. exact Ag.
  - apply good_wr; [assumption|]. apply IHG. apply agree_put. exact Ag.
Qed.

(** goroutine i owns the nodes [Hs i] and has to answer [as_ i] *)
Lemma go_on_good : forall {A} (Hs : nat -> nat -> Prop) (as_ : nat -> A) sched m (ps : list (prog A)),
  (forall i j r, i <> j -> Hs i r -> Hs j r -> False) ->
  (forall i p, nth_error ps i = Some p -> good (Hs i) (fun a _ => a = as_ i) p m) ->
  forall i p, nth_error (snd (go_on sched m ps)) i = Some p -> exists m', good (Hs i) (fun a _ => a = as_ i) p m'.
Proof.
  intros A Hs as_ sched. induction sched as [|j sched IH]; intros m ps D G i p N; cbn [go_on] in N; [exists m; apply G; exact N|].
  destruct (step_at m j ps) as [m' ps'] eqn:E. destruct (step_at_spec _ _ _ _ _ E) as [(N' & -> & ->)|(q & q' & N' & O & J)]; [eapply IH; eassumption|].
  refine (IH m' ps' D _ i p N). clear i p N. intros i p N. rewrite J in N. pose proof (G j q N') as Gq. destruct (Nat.eqb_spec i j) as [->|Q].
  - injection N as <-. destruct Gq; cbn in O; injection O as <- <-; [apply good_ret; assumption|assumption|apply H|assumption].
  - eapply good_agree; [intros a m1 m2 _ K; exact K|apply G; exact N|]. intros r f Hr. destruct Gq; cbn in O; injection O as <- <-; try reflexivity.
    symmetry. apply put_other. intros ->. exact (D i j _ Q Hr H).
Qed.

(** ** The own node *)
Section Own.
Variable H : nat -> Prop.
Variable lk : links.
Variable shs : list shift.
Variable h : nat.
Hypothesis Hh : H h.
Local Notation c := (snd (lk h)).

Ltac own := apply good_own; [exact Hh|].
Ltac wr := apply good_wr; [exact Hh|].

Definition framed (m m' : memory) : Prop := forall r f, r <> h -> m' r f = m r f.
(** only the maximum of the node is different *)
Definition only_max (m m' : memory) : Prop := framed m m' /\ forall f, f <> FMax -> m' h f = m h f.

Lemma own_ins : forall amt n k m, good H (fun _ m' => framed m m' /\ m' h FPos = m h FPos /\ m' h FTs = m h FTs /\ m' h FMax = m h FMax /\
  (forall j, (j < k)%nat -> m' h (FHigh j) = m h (FHigh j)) /\ (forall j, (k <= j < k + n)%nat -> m' h (FHigh j) = m h (FHigh j) + amt)) (p_ins h amt k n) m.
Proof.
  intros amt. induction n as [|n IH]; intros k m; cbn [p_ins].
  - apply good_ret. repeat split; intros; lia.
  - own. wr. own. wr. rewrite (put_field m h (FLow k)) by discriminate. eapply good_weaken; [apply IH|]. cbn beta. intros _ m' (A & B & C & D & E & F).
    repeat split.
    + intros r f N. rewrite (A r f N), put_other, put_other by exact N. reflexivity.
    + rewrite B, put_field, put_field by discriminate. reflexivity.
    + rewrite C, put_field, put_field by discriminate. reflexivity.
    + rewrite D, put_field, put_field by discriminate. reflexivity.
    + intros j L. rewrite E by lia. rewrite put_field, put_field; [reflexivity|discriminate|]. intro K. injection K as ->. lia.
    + intros j L. destruct (Nat.eq_dec j k) as [->|Q].
      * rewrite E by lia. rewrite put_same. reflexivity.
      * rewrite F by lia. rewrite put_field, put_field; [reflexivity|discriminate|]. intro K. injection K as ->. congruence.
Qed.
Lemma own_high : forall n k high m, good H (fun u m' => m' = m /\ high <= u /\ forall j, (k <= j < k + n)%nat -> m h (FHigh j) <= u) (p_high h k n high) m.
Proof.
  induction n as [|n IH]; intros k high m; cbn [p_high].
  - apply good_ret. split; [reflexivity|]. split; [lia|]. intros; lia.
  - own. destruct (Z.ltb_spec high (m h (FHigh k))) as [L|L]; [own|]; (eapply good_weaken; [apply IH|]); cbn beta; intros u m' (-> & B & D);
      (split; [reflexivity|]); (split; [lia|]); intros j Lj; (destruct (Nat.eq_dec j k) as [->|Q]; [lia|apply D; lia]).
Qed.
Lemma own_child : forall x m, good H (fun _ m' => only_max m m') (p_max_child h x) m.
Proof.
  intros [x|] m; cbn [p_max_child].
  - own. apply good_any. intro b. wr. apply good_ret. split; [intros r f N; apply put_other; exact N|]. intros f N. apply put_field. exact N.
  - apply good_ret. split; [intros r f N; reflexivity|reflexivity].
Qed.
Lemma only_max_trans : forall a b d, only_max a b -> only_max b d -> only_max a d.
Proof. intros a b d [A1 A2] [B1 B2]. split; [intros r f N; rewrite (B1 r f N); apply A1; exact N|]. intros f N. rewrite (B2 f N). apply A2. exact N. Qed.
Lemma own_update : forall m, good H (fun _ m' => only_max m m' /\ forall j, (j < c)%nat -> m h (FHigh j) <= m' h FMax) (p_update_max lk h) m.
Proof.
  intro m. unfold p_update_max. destruct (lk h) as [[l r] n]. cbn [snd].
  apply good_bind. eapply good_weaken; [apply own_child|]. cbn beta. intros _ m1 E1.
  apply good_bind. eapply good_weaken; [apply own_child|]. cbn beta. intros _ m2 E2. pose proof (only_max_trans _ _ _ E1 E2) as E. own.
  apply good_bind. eapply good_weaken; [apply own_high|]. cbn beta. intros u m3 (-> & B & D). wr. apply good_ret. split.
  - eapply only_max_trans; [exact E|]. split; [intros x f N; apply put_other; exact N|]. intros f N. apply put_field. exact N.
  - intros j L. rewrite put_same. rewrite <- (proj2 E (FHigh j)) by discriminate. specialize (D j ltac:(lia)). lia.
Qed.

(** the node does not start behind its maximum, nor behind the end of one of its intervals *)
Definition firm (m : memory) : Prop := m h FPos <= m h FMax /\ exists k, (k < c)%nat /\ m h FPos <= m h (FHigh k).

Lemma own_shift : forall s m, firm m -> m h FTs < Z.of_nat (sh_ts s) ->
  good H (fun _ m' => firm m' /\ framed m m' /\ m' h FTs = Z.of_nat (sh_ts s) /\ m' h FPos = slide (m h FPos) s) (p_shift lk h s) m.
Proof.
  intros s m [F1 (k & Lk & F2)] T. unfold p_shift. own. rewrite (proj2 (Z.leb_gt _ _) T). wr. own. rewrite put_field by discriminate. unfold slide.
  destruct (Z.ltb_spec (m h FMax) (sh_idx s)) as [L|L].
  - apply good_ret. rewrite (proj2 (Z.leb_gt _ _)) by lia. unfold firm. rewrite put_same, !put_field by discriminate. split; [|split; [|split; [reflexivity|reflexivity]]].
    + split; [exact F1|]. exists k. rewrite put_field by discriminate. auto.
    + intros r f N. apply put_other. exact N.
  - own. wr. own. rewrite !put_field by discriminate.
    destruct (Z.leb_spec (sh_idx s) (m h FPos)) as [P|P].
    + own. wr. rewrite !put_field by discriminate. apply good_bind. eapply good_weaken; [apply own_ins|]. cbn beta.
      intros _ m1 (A & B & C & D & _ & E). rewrite put_same in B. rewrite !put_field in C by discriminate. rewrite put_same in C.
      eapply good_weaken; [apply own_update|]. cbn beta. intros _ m2 [[U1 U2] U3]. unfold firm.
      rewrite (U2 FPos), (U2 FTs), B, C by discriminate. split; [|split; [|split; reflexivity]].
      * specialize (E k ltac:(lia)). rewrite !put_field in E by discriminate. split; [specialize (U3 k Lk); lia|].
        exists k. rewrite (U2 (FHigh k)) by discriminate. split; [exact Lk|lia].
      * intros r f N. rewrite (U1 r f N), (A r f N), !put_other by exact N. reflexivity.
    + eapply good_weaken; [apply own_update|]. cbn beta. intros _ m2 [[U1 U2] U3]. unfold firm. rewrite (U2 FPos), (U2 FTs) by discriminate.
      rewrite !put_field by discriminate. rewrite put_same. split; [|split; [|split; reflexivity]].
      * specialize (U3 k Lk). rewrite !put_field in U3 by discriminate. split; [lia|]. exists k. rewrite (U2 (FHigh k)), !put_field by discriminate. auto.
      * intros r f N. rewrite (U1 r f N), !put_other by exact N. reflexivity.
Qed.
Lemma own_loop : forall ss T m, firm m -> m h FTs = Z.of_nat T -> (forall j s, nth_error ss j = Some s -> sh_ts s = S (T + j)) ->
  good H (fun _ m' => firm m' /\ framed m m' /\ m' h FTs = Z.of_nat (T + List.length ss) /\ m' h FPos = fold_left slide ss (m h FPos)) (p_loop lk h ss) m.
Proof.
  induction ss as [|s ss IH]; intros T m F E W; cbn [p_loop fold_left List.length].
  - apply good_ret. repeat split; try apply F. rewrite E. f_equal. lia.
  - pose proof (W 0%nat s eq_refl) as Ws. apply good_bind. eapply good_weaken; [apply own_shift; [exact F|lia]|]. cbn beta. intros _ m1 (A & B & C & D).
    eapply good_weaken; [apply (IH (S T) m1 A)|].
    + rewrite C, Ws. f_equal. lia.
    + intros j x N. rewrite (W (S j) x N). lia.
    + cbn beta. intros _ m2 (A' & B' & C' & D'). split; [exact A'|]. split; [intros r f N; rewrite (B' r f N); apply B; exact N|].
      split; [rewrite C'; f_equal; lia|]. rewrite D', D. reflexivity.
Qed.
Lemma own_start : forall T j m, m h FTs = Z.of_nat T -> good H (fun i m' => m' = m /\ i = shift_start T shs j) (p_start shs h j) m.
Proof.
  intros T. induction j as [|j IH]; intros m E; cbn [p_start shift_start]; [apply good_ret; auto|]. own. rewrite E.
  destruct (nth_error shs (S j)) as [s|]; [|apply IH; exact E].
  destruct (Nat.leb_spec (sh_ts s) T) as [L|L]; [rewrite (proj2 (Z.leb_le _ _)) by lia; apply good_ret; auto|rewrite (proj2 (Z.leb_gt _ _)) by lia; apply IH; exact E].
Qed.
Hypothesis W : wf_shs shs.
Lemma own_shifts : forall T m, firm m -> m h FTs = Z.of_nat T -> (T <= List.length shs)%nat ->
  good H (fun _ m' => firm m' /\ framed m m' /\ m' h FTs = Z.of_nat (List.length shs) /\ m' h FPos = fold_left slide (skipn T shs) (m h FPos)) (p_shifts lk shs h) m.
Proof.
  intros T m F E L. unfold p_shifts. destruct (rev shs) as [|s ss] eqn:R.
  - assert (shs = []) as -> by (rewrite <- (rev_involutive shs), R; reflexivity). apply good_ret. rewrite skipn_nil. cbn in L |- *. assert (T = 0)%nat by lia. subst. repeat split; auto; apply F.
  - assert (shs = rev ss ++ [s]) as Es by (rewrite <- (rev_involutive shs), R; reflexivity).
    assert (List.length shs = S (List.length (rev ss))) as El by (rewrite Es, app_length; cbn; lia).
    assert (sh_ts s = List.length shs) as Ts. { rewrite El. apply W. rewrite Es, nth_error_app2, Nat.sub_diag by lia. reflexivity. }
    own. rewrite E. destruct (Z.leb_spec (Z.of_nat (sh_ts s)) (Z.of_nat T)) as [Q|Q].
    + apply good_ret. rewrite skipn_all2 by lia. cbn [fold_left]. split; [exact F|]. split; [intros r f N; reflexivity|]. split; [rewrite E; f_equal; lia|reflexivity].
    + apply good_bind. eapply good_weaken; [apply (own_start T); exact E|]. cbn beta. intros j m' [-> ->].
      rewrite (shift_start_spec shs T (List.length shs - 1) W ltac:(lia) ltac:(lia)).
      assert (good H (fun _ m' => firm m' /\ framed m m' /\ m' h FTs = Z.of_nat (List.length shs) /\ m' h FPos = fold_left slide (skipn T shs) (m h FPos)) (p_loop lk h (skipn T shs)) m) as G.
      { eapply good_weaken; [apply (own_loop (skipn T shs) T m F E)|].
        * intros i x N. eapply wf_skipn; eassumption.
        * cbn beta. intros _ m' (A & B & C & D). split; [exact A|]. split; [exact B|]. split; [|exact D]. rewrite C, skipn_length. f_equal. lia. }
      destruct (Nat.leb_spec 2 T) as [Q2|Q2]; [exact G|]. destruct T as [|[|T]]; [exact G| |lia].
      destruct shs as [|s0 shs']; [discriminate|]. cbn [skipn p_loop] in G |- *. apply good_bind. unfold p_shift. own. rewrite E.
      rewrite (W 0%nat s0 eq_refl). cbn [Z.of_nat]. rewrite Z.leb_refl. apply good_ret. exact G.
Qed.
End Own.

(** ** A goroutine *)
Section Asks.
Variable H : nat -> Prop.
Variable lk : links.
Variable shs : list shift.
Hypothesis W : wf_shs shs.
Variable e : nat -> Z.     (* the right answers *)
Definition ready (m : memory) (h : nat) : Prop :=
  firm lk h m /\ exists T, m h FTs = Z.of_nat T /\ (T <= List.length shs)%nat /\ fold_left slide (skipn T shs) (m h FPos) = e h.
Lemma asks_good : forall hs m, (forall h, In h hs -> H h /\ ready m h) -> good H (fun ans _ => ans = map e hs) (p_asks lk shs hs) m.
Proof.
  intro hs0. assert (forall hs m, incl hs hs0 -> (forall h, In h hs0 -> H h /\ ready m h) -> good H (fun ans _ => ans = map e hs) (p_asks lk shs hs) m) as K; [|intros m; apply K; apply incl_refl].
  induction hs as [|h hs IH]; intros m I R; cbn [p_asks map]; [apply good_ret; reflexivity|].
  destruct (R h (I h (or_introl eq_refl))) as [Hh [F (T & E & L & S)]]. apply good_bind. unfold p_pos. apply good_bind.
  eapply good_weaken; [apply (own_shifts H lk shs h Hh W T m F E L)|]. cbn beta. intros _ m1 (F1 & Fr & T1 & P1). rewrite S in P1.
  apply good_own; [exact Hh|]. apply good_ret. rewrite P1. apply good_bind. eapply good_weaken; [apply IH|].
  - intros x Hx. apply I. right. exact Hx.
  - intros x Hx. destruct (R x Hx) as [Hhx Rx]. split; [exact Hhx|]. destruct (Nat.eq_dec x h) as [->|Q].
    + split; [exact F1|]. exists (List.length shs). split; [exact T1|]. split; [lia|]. rewrite skipn_all. exact P1.
    + destruct Rx as [[A (k & B & C)] (T2 & D)]. split; [split; [|exists k; split; [exact B|]]|exists T2]; rewrite !Fr by exact Q; assumption.
  - cbn beta. intros ans m2 ->. apply good_ret. reflexivity.
Qed.
End Asks.

(** ** Trees *)
Section Tree.
Context {V : Type}.
Lemma core_shift : forall s (n : nd V) l r, core (view (apply_shift s n l r)) <-> core (view n).
Proof.
  intros s n l r. unfold apply_shift. destruct (_ <=? _)%nat; [reflexivity|]. cbv zeta. destruct (_ <? _); [reflexivity|].
  destruct (_ <=? _); [|reflexivity]. unfold core. cbn. unfold ins_shift. rewrite Forall_map. cbn.
  split; apply Forall_impl; intros; lia.
Qed.
Lemma core_shifts : forall shs (n : nd V) l r, core (view (apply_shifts shs n l r)) <-> core (view n).
Proof.
  intros shs n l r. unfold apply_shifts. destruct (rev shs); [reflexivity|]. destruct (_ <=? _)%nat; [reflexivity|].
  generalize (skipn (shift_start (n_ts n) shs (List.length shs - 1)) shs). intro ss. revert n. induction ss as [|x ss IH]; intro n; [reflexivity|].
  cbn [fold_left]. rewrite IH. apply core_shift.
Qed.
(** like dead_shift, from less *)
Lemma firm_shift : forall s (n : nd V) l r, core (view n) -> n_pos n <= n_max n -> n_ins n <> [] -> (n_ts n < sh_ts s)%nat ->
  n_pos (apply_shift s n l r) = slide (n_pos n) s /\ n_pos (apply_shift s n l r) <= n_max (apply_shift s n l r) /\ n_ins (apply_shift s n l r) <> [].
Proof.
  intros s n l r C B N T. unfold apply_shift. destruct (Nat.leb_spec (sh_ts s) (n_ts n)); [lia|]. cbv zeta. cbn [n_max set_ts]. unfold slide.
  destruct (Z.ltb_spec (n_max n) (sh_idx s)) as [Q|Q]; [cbn; rewrite (proj2 (Z.leb_gt _ _)) by lia; auto|].
  cbn [n_pos set_max set_ts]. unfold core in C. cbn [v_ins v_pos view] in C. destruct (n_ins n) as [|i ins] eqn:Ei; [congruence|]. inversion C as [|? ? [C1 C2] _]; subst.
  destruct (Z.leb_spec (sh_idx s) (n_pos n)) as [L|L];
    match goal with |- n_pos (update_max ?n2 _ _) = _ /\ _ => set (n3 := n2) end;
    destruct (update_max_spec n3 l r) as (U1 & U2 & U3 & U4 & _); 
    pose proof (f_equal v_pos U1) as E2; pose proof (f_equal v_ins U1) as E4; cbn [v_pos v_ins view] in E2, E4; rewrite E2, E4; unfold n3 in *; cbn in U4 |- *; rewrite Ei in *;
    inversion U4 as [|? ? D1 _]; subst; cbn in *; (split; [reflexivity|]); (split; [lia|discriminate]).
Qed.
Lemma firm_apply : forall shs (n : nd V) l r, wf_shs shs -> (n_ts n <= List.length shs)%nat -> core (view n) -> n_pos n <= n_max n -> n_ins n <> [] ->
  n_pos (apply_shifts shs n l r) = fold_left slide (skipn (n_ts n) shs) (n_pos n).
Proof.
  intros shs n l r W T. rewrite apply_shifts_eq by assumption.
  assert (forall j s, nth_error (skipn (n_ts n) shs) j = Some s -> sh_ts s = S (n_ts n + j)) as K by (intros j s N; eapply wf_skipn; eassumption).
  revert K. generalize (skipn (n_ts n) shs). clear T. intro ss. revert n. induction ss as [|s ss IH]; intros n K C B N; [reflexivity|]. cbn [fold_left fold_sh].
  pose proof (K 0%nat s eq_refl) as Ks. destruct (firm_shift s n l r C B N ltac:(lia)) as (E1 & E2 & E3). rewrite <- E1. apply IH; [|apply core_shift; exact C|exact E2|exact E3].
  intros j x Nx. rewrite apply_shift_ts by lia. rewrite Ks. rewrite (K (S j) x Nx). lia.
Qed.
Lemma sub_inv : forall shs h (t : tree V) n l r, inv shs t -> sub_at h t = Some (n, l, r) ->
  n_ref n = h /\ (n_ts n <= List.length shs)%nat /\ n_pos n <= n_max n /\ core (view n).
Proof.
  intros shs h. induction t as [|m a IHa b IHb]; intros n l r I S; cbn [sub_at] in S; [discriminate|]. destruct I as (I1 & I2 & I3 & _ & _ & _ & _ & _ & Ia & Ib).
  destruct (Nat.eqb_spec (n_ref m) h) as [Q|Q]; [injection S as <- <- <-; rewrite core_shifts in I3; auto|].
  destruct (sub_at h a) as [x|]; [injection S as ->; eapply IHa; [exact Ia|reflexivity]|eapply IHb; eassumption].
Qed.
(** the handle h is the handle of a value that is in the tree *)
Definition holds_value (t : itree V) (h : nat) : Prop := exists n l r, sub_at h (t_root t) = Some (n, l, r) /\ n_ins n <> [].

Theorem separate_right : forall (tr : list (iop V)) t hss sched, calm tr -> it_run tr = Some t ->
  Forall (Forall (holds_value t)) hss ->
  (forall i j a b h, i <> j -> nth_error hss i = Some a -> nth_error hss j = Some b -> In h a -> In h b -> False) ->
  forall i l ans, nth_error hss i = Some l -> nth_error (snd (race t hss sched)) i = Some (Ret ans) -> map Some ans = map (fun h => snd (it_pos t h)) l.
Proof.
  intros tr t hss sched C R F D. destruct (run_spec tr C) as (t' & R' & (W & _ & I & _ & _) & _). rewrite R in R'. injection R' as <-.
  set (e := fun h => match snd (it_pos t h) with Some p => p | None => 0 end).
  assert (forall h, holds_value t h -> ready (links_of (t_root t)) (t_shifts t) e (memory_of (t_root t)) h /\ snd (it_pos t h) = Some (e h)) as K.
  { intros h (n & l & r & S & N). destruct (sub_inv _ _ _ _ _ _ I S) as (E & T & B & Co). unfold e. rewrite (proj2 (proj2 (it_pos_parts t h))), touch_answer, S. split; [|reflexivity].
    unfold ready, firm, links_of, memory_of. rewrite S. cbn [snd cell]. split.
    - split; [exact B|]. unfold core in Co. cbn in Co. destruct (n_ins n) as [|i ins]; [congruence|]. exists 0%nat. cbn. inversion Co; subst. lia.
    - exists (n_ts n). split; [reflexivity|]. split; [exact T|]. rewrite (proj2 (proj2 (it_pos_parts t h))), touch_answer, S. symmetry. apply firm_apply; assumption. }
  intros i l ans Nl Np. set (Hs := fun i h => exists a, nth_error hss i = Some a /\ In h a). unfold race in Np.
  destruct (go_on_good Hs (fun i => match nth_error hss i with Some a => map e a | None => [] end) sched (memory_of (t_root t)) (readers t hss)) with (i := i) (p := Ret ans : prog (list Z)) as (m' & G).
  - intros x y h Q (a & A1 & A2) (b & B1 & B2). eapply D; eassumption.
  - intros x p N. unfold readers in N. rewrite nth_error_map in N. destruct (nth_error hss x) as [a|] eqn:E; [|discriminate]. injection N as <-.
    apply asks_good with (e := e); [exact W|]. intros h Hin. split; [exists a; auto|]. apply K. rewrite Forall_forall in F. specialize (F a (nth_error_In _ _ E)). rewrite Forall_forall in F. apply F. exact Hin.
  - exact Np.
  - rewrite Nl in G. inversion G; subst. rewrite map_map. apply map_ext_in. intros h Hin. symmetry. apply K. rewrite Forall_forall in F. specialize (F l (nth_error_In _ _ Nl)). rewrite Forall_forall in F. apply F. exact Hin.
Qed.
End Tree.
