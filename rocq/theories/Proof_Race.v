(** Proofs for Model_Race: goroutines that ask for positions. *)
From Coq Require Import ZArith Lia List.
From Verif Require Import Base Model_Interval Spec_Interval Model_Detach Model_Race Proof_Interval Proof_Interval2 Proof_Interval3 Proof_Interval4 Proof_Detach.
Local Open Scope Z_scope.

(** ** Every goroutine ends *)
Inductive within {A} : nat -> prog A -> Prop :=
| W_ret n a : within n (Ret a)
| W_rd n r f k : (forall v, within n (k v)) -> within (S n) (Rd r f k)
| W_wr n r f v k : within n k -> within (S n) (Wr r f v k).
Lemma within_more : forall {A} n (p : prog A), within n p -> forall n', (n <= n')%nat -> within n' p.
Proof.
  intros A n p H. induction H; intros n' L; [constructor| |]; (destruct n' as [|n']; [lia|]); constructor; [intro v; apply H0; lia|apply IHwithin; lia].
Qed.
Lemma within_bind : forall {A B} n n' (p : prog A) (q : A -> prog B), within n p -> (forall a, within n' (q a)) -> within (n + n') (pbind p q).
Proof.
  intros A B n n' p q H Q. induction H; cbn [pbind]; [eapply within_more; [apply Q|lia]| |]; cbn; constructor; auto.
Qed.
Lemma within_ins : forall h amt c k, within (4 * c) (p_ins h amt k c).
Proof.
  intros h amt. induction c as [|c IH]; intro k; [constructor|]. cbn [p_ins]. apply (within_more (S (S (S (S (4 * c)))))); [|lia].
  constructor. intro l. constructor. constructor. intro u. constructor. apply IH.
Qed.
Lemma within_high : forall h c k high, within (2 * c) (p_high h k c high).
Proof.
  intros h. induction c as [|c IH]; intros k high; [constructor|]. cbn [p_high]. apply (within_more (S (S (2 * c)))); [|lia].
  constructor. intro u. destruct (high <? u); [constructor; intro; apply IH|]. eapply within_more; [apply IH|lia].
Qed.
Lemma within_child : forall h c, within 3 (p_max_child h c).
Proof. intros h [c|]; [|constructor]. cbn. constructor. intro. constructor. intro. constructor. constructor. Qed.
Lemma within_update : forall lk h, within (2 * snd (lk h) + 8) (p_update_max lk h).
Proof.
  intros lk h. unfold p_update_max. destruct (lk h) as [[l r] c]. cbn [snd]. apply (within_more (3 + (3 + (S (2 * c + 1))))); [|lia].
  apply within_bind; [apply within_child|]. intros _. apply within_bind; [apply within_child|]. intros _. constructor. intro a.
  apply within_bind; [apply within_high|]. intro b. constructor. constructor.
Qed.
Lemma within_shift : forall lk h s, within (6 * snd (lk h) + 16) (p_shift lk h s).
Proof.
  intros lk h s. unfold p_shift. apply (within_more (8 + (4 * snd (lk h) + (2 * snd (lk h) + 8)))); [|lia]. constructor. intro t.
  destruct (_ <=? t); [constructor|]. constructor. constructor. intro m. destruct (m <? _); [constructor|]. constructor. intro m'. constructor. constructor. intro p.
  destruct (_ <=? p); [|eapply within_more; [apply within_update|lia]]. constructor. intro p'. constructor. apply within_bind; [apply within_ins|]. intros _. apply within_update.
Qed.
Lemma within_start : forall shs h j, within j (p_start shs h j).
Proof.
  intros shs h. induction j as [|j IH]; [constructor|]. cbn [p_start]. constructor. intro t. destruct (nth_error shs (S j)); [|exact IH].
  destruct (_ <=? t); [constructor|exact IH].
Qed.
Lemma within_loop : forall lk h ss, within (List.length ss * (6 * snd (lk h) + 16)) (p_loop lk h ss).
Proof.
  intros lk h. induction ss as [|s ss IH]; [constructor|]. cbn [p_loop List.length Nat.mul]. apply within_bind; [apply within_shift|]. intros _. exact IH.
Qed.
Lemma within_pos : forall lk shs h, exists n, within n (p_pos lk shs h).
Proof.
  intros lk shs h. exists (S ((List.length shs - 1) + (List.length shs * (6 * snd (lk h) + 16))) + 1)%nat. unfold p_pos. apply within_bind; [|intros _; constructor; constructor].
  unfold p_shifts. destruct (rev shs) as [|s ss]; [constructor|]. constructor. intro t. destruct (_ <=? t); [constructor|].
  apply within_bind; [apply within_start|]. intro j. eapply within_more; [apply within_loop|]. apply Nat.mul_le_mono_r. rewrite skipn_length. lia.
Qed.
Lemma within_asks : forall lk shs hs, exists n, within n (p_asks lk shs hs).
Proof.
  intros lk shs. induction hs as [|h hs (n & IH)]; [exists 0%nat; constructor|]. destruct (within_pos lk shs h) as (n' & H).
  exists (n' + (n + 0))%nat. cbn [p_asks]. apply within_bind; [exact H|]. intro p. apply within_bind; [exact IH|]. intro. constructor.
Qed.

Lemma step_at_spec : forall {A} i m (ps : list (prog A)) m' ps', step_at m i ps = (m', ps') ->
  (nth_error ps i = None /\ m' = m /\ ps' = ps) \/
  exists p p', nth_error ps i = Some p /\ one_step m p = (m', p') /\ forall j, nth_error ps' j = if (j =? i)%nat then Some p' else nth_error ps j.
Proof.
  intros A. induction i as [|i IH]; intros m [|p ps] m' ps' H; cbn [step_at] in H.
  - injection H as <- <-. left. auto.
  - destruct (one_step m p) as [m1 p1] eqn:E. injection H as <- <-. right. exists p, p1. split; [reflexivity|]. split; [exact E|]. intros [|j]; reflexivity.
  - injection H as <- <-. left. auto.
  - destruct (step_at m i ps) as [m1 ps1] eqn:E. injection H as <- <-. destruct (IH _ _ _ _ E) as [(N & -> & ->)|(q & q' & N & O & J)]; [left; auto|].
    right. exists q, q'. split; [exact N|]. split; [exact O|]. intros [|j]; [reflexivity|]. apply J.
Qed.
Lemma one_step_within : forall {A} m (p : prog A) m' p' n, one_step m p = (m', p') -> within (S n) p -> within n p'.
Proof.
  intros A m p m' p' n H W. inversion W; subst; cbn in H; injection H as <- <-; [constructor|auto|assumption].
Qed.
Lemma go_on_ends : forall {A} sched m (ps : list (prog A)) i p n, nth_error ps i = Some p -> within n p -> (n <= count_occ Nat.eq_dec sched i)%nat ->
  exists a, nth_error (snd (go_on sched m ps)) i = Some (Ret a).
Proof.
  intros A. induction sched as [|j sched IH]; intros m ps i p n N W L; cbn [go_on count_occ] in *.
  - assert (n = 0)%nat by lia. subst. inversion W; subst. exists a. exact N.
  - destruct (step_at m j ps) as [m' ps'] eqn:E. destruct (step_at_spec _ _ _ _ _ E) as [(N' & -> & ->)|(q & q' & N' & O & J)].
    + destruct (Nat.eq_dec j i) as [->|Q]; [congruence|]. eapply IH; eassumption.
    + destruct (Nat.eq_dec j i) as [->|Q].
      * rewrite N in N'. injection N' as <-. specialize (J i). rewrite Nat.eqb_refl in J. eapply (IH m' ps' i q' (n - 1)%nat J); [|lia].
        eapply one_step_within; [exact O|]. eapply within_more; [exact W|lia].
      * specialize (J i). rewrite (proj2 (Nat.eqb_neq i j)) in J by congruence. rewrite N in J. eapply IH; eassumption.
Qed.
Theorem race_ends : forall {V} (t : itree V) hss, exists n, forall sched i, (i < List.length hss)%nat -> (n <= count_occ Nat.eq_dec sched i)%nat ->
  exists ans, nth_error (snd (race t hss sched)) i = Some (Ret ans).
Proof.
  intros V t hss. unfold race. generalize (memory_of (t_root t)). intro m.
  assert (exists n, forall i p, nth_error (readers t hss) i = Some p -> within n p) as (n & H).
  { unfold readers. induction hss as [|hs hss (n & IH)]; [exists 0%nat; intros [|i] p N; discriminate|].
    destruct (within_asks (links_of (t_root t)) (t_shifts t) hs) as (n' & W). exists (n + n')%nat. intros [|i] p N; cbn in N.
    - injection N as <-. eapply within_more; [exact W|lia].
    - eapply within_more; [exact (IH _ _ N)|lia]. }
  exists n. intros sched i L C. destruct (nth_error (readers t hss) i) as [p|] eqn:E.
  - eapply go_on_ends; [exact E|exact (H _ _ E)|exact C].
  - apply nth_error_None in E. unfold readers in E. rewrite map_length in E. lia.
Qed.

(** ** Handles that were asked before *)
Inductive silent {A} (m : memory) (a : A) : prog A -> Prop :=
| S_ret : silent m a (Ret a)
| S_rd r f k : silent m a (k (m r f)) -> silent m a (Rd r f k).
Lemma silent_bind : forall {A B} m a b (p : prog A) (q : A -> prog B), silent m a p -> silent m b (q a) -> silent m b (pbind p q).
Proof. intros A B m a b p q H Q. induction H; cbn [pbind]; [exact Q|constructor; exact IHsilent]. Qed.
Lemma go_on_silent : forall {A} sched m (ps : list (prog A)) (as_ : list A), (forall i p, nth_error ps i = Some p -> exists a, nth_error as_ i = Some a /\ silent m a p) ->
  fst (go_on sched m ps) = m /\ forall i p, nth_error (snd (go_on sched m ps)) i = Some p -> exists a, nth_error as_ i = Some a /\ silent m a p.
Proof.
  intros A. induction sched as [|j sched IH]; intros m ps as_ H; cbn [go_on]; [split; [reflexivity|exact H]|].
  destruct (step_at m j ps) as [m' ps'] eqn:E. destruct (step_at_spec _ _ _ _ _ E) as [(N' & -> & ->)|(q & q' & N' & O & J)]; [apply IH; exact H|].
  destruct (H _ _ N') as (a & Ha & S). assert (m' = m /\ silent m a q') as [-> S'].
  { inversion S; subst; cbn in O; injection O as <- <-; split; try reflexivity; [constructor|assumption]. }
  apply IH. intros i p N. rewrite J in N. destruct (Nat.eqb_spec i j) as [->|Q]; [injection N as <-; exists a; auto|apply H; exact N].
Qed.

Section Silent.
Context {V : Type}.
Definition fresh (shs : list shift) (n : nd V) : Prop := match rev shs with [] => True | s :: _ => (sh_ts s <= n_ts n)%nat end.
Lemma silent_pos : forall lk shs h (t : tree V) n l r, sub_at h t = Some (n, l, r) -> fresh shs n -> silent (memory_of t) (n_pos n) (p_pos lk shs h).
Proof.
  intros lk shs h t n l r H F. unfold p_pos. eapply silent_bind with (a := tt).
  - unfold p_shifts. unfold fresh in F. destruct (rev shs) as [|s ss]; [constructor|]. constructor. unfold memory_of. rewrite H. cbn [cell].
    rewrite (proj2 (Z.leb_le _ _)) by lia. constructor.
  - constructor. unfold memory_of. rewrite H. cbn [cell]. constructor.
Qed.
Lemma fresh_apply : forall shs (n : nd V) l r, fresh shs n -> apply_shifts shs n l r = n.
Proof. intros shs n l r F. unfold apply_shifts, fresh in *. destruct (rev shs); [reflexivity|]. rewrite (proj2 (Nat.leb_le _ _) F). reflexivity. Qed.
Lemma shift_ts : forall s (n : nd V) l r, (sh_ts s <= n_ts (apply_shift s n l r))%nat /\ (n_ts n <= n_ts (apply_shift s n l r))%nat.
Proof.
  intros s n l r. unfold apply_shift. destruct (Nat.leb_spec (sh_ts s) (n_ts n)); [lia|]. cbv zeta. destruct (_ <? _); [cbn; lia|].
  destruct (_ <=? _); cbn; lia.
Qed.
Lemma fold_ts : forall l r ss (n : nd V), (n_ts n <= n_ts (fold_left (fun n s => apply_shift s n l r) ss n))%nat.
Proof. intros l r. induction ss as [|s ss IH]; intro n; [reflexivity|]. cbn [fold_left]. etransitivity; [apply (shift_ts s n l r)|apply IH]. Qed.
Lemma shift_start_le : forall shs ts j, (shift_start ts shs j <= S j)%nat /\ (forall s, nth_error shs j = Some s -> (ts < sh_ts s)%nat -> (shift_start ts shs j <= j)%nat).
Proof.
  intros shs ts. induction j as [|j [IH _]]; cbn [shift_start]; [split; [lia|intros; lia]|]. split.
  - destruct (nth_error shs (S j)) as [s|]; [destruct (_ <=? _)%nat; lia|lia].
  - intros s Hs L. rewrite Hs. rewrite (proj2 (Nat.leb_gt _ _) L). lia.
Qed.
Lemma apply_fresh : forall shs (n : nd V) l r, fresh shs (apply_shifts shs n l r).
Proof.
  intros shs n l r. unfold fresh, apply_shifts. destruct (rev shs) as [|s ss] eqn:E; [exact Logic.I|].
  destruct (Nat.leb_spec (sh_ts s) (n_ts n)) as [L|L]; [exact L|].
  assert (shs = rev ss ++ [s]) as Es by (rewrite <- (rev_involutive shs), E; reflexivity).
  assert (List.length shs - 1 = List.length (rev ss))%nat as El by (rewrite Es, app_length; cbn; lia).
  rewrite El. destruct (shift_start_le shs (n_ts n) (List.length (rev ss))) as [_ K]. specialize (K s).
  rewrite Es in K at 1. rewrite nth_error_app2 in K by lia. rewrite Nat.sub_diag in K. specialize (K eq_refl L).
  revert K. generalize (shift_start (n_ts n) shs (List.length (rev ss))). intros k K. rewrite Es.
  rewrite skipn_app. replace (k - List.length (rev ss))%nat with 0%nat by lia. cbn [skipn]. rewrite fold_left_app. cbn [fold_left]. apply shift_ts.
Qed.

Lemma touch_sub : forall shs h' h (t : tree V), match sub_at h t with
  | None => sub_at h (fst (touch shs h' t)) = None
  | Some (n, l, r) => exists l' r', sub_at h (fst (touch shs h' t)) = Some (if (h =? h')%nat then apply_shifts shs n l r else n, l', r')
  end.
Proof.
  intros shs h' h. induction t as [|n l IHl r IHr]; [reflexivity|]. cbn [sub_at touch]. destruct (Nat.eqb_spec (n_ref n) h') as [Q'|Q'].
  - cbn [fst sub_at]. rewrite apply_shifts_ref. destruct (Nat.eqb_spec (n_ref n) h) as [Q|Q].
    + rewrite (proj2 (Nat.eqb_eq h h')) by congruence. eauto.
    + destruct (sub_at h l) as [[[n1 l1] r1]|]; [|destruct (sub_at h r) as [[[n1 l1] r1]|]; [|reflexivity]]; rewrite (proj2 (Nat.eqb_neq h h')) by congruence; eauto.
  - destruct (touch shs h' l) as [l2 o] eqn:El. destruct (touch shs h' r) as [r2 o2] eqn:Er. cbn [fst] in *.
    assert (exists l3 r3, (l3 = l2 \/ l3 = l) /\ (o = None -> l3 = l2 /\ r3 = r2) /\ (o <> None -> l3 = l2 /\ r3 = r) /\
            fst (match o with Some _ => (Node n l2 r, o) | None => (Node n l2 r2, o2) end) = Node n l3 r3) as (l3 & r3 & _ & A & B & C).
    { destruct o; do 2 eexists; (split; [left; reflexivity|]); (split; [intro; try discriminate; auto|]); (split; [intro; try congruence; auto|reflexivity]). }
    rewrite C. cbn [sub_at]. destruct (Nat.eqb_spec (n_ref n) h) as [Q|Q].
    + rewrite (proj2 (Nat.eqb_neq h h')) by congruence. eauto.
    + assert (l3 = l2) as -> by (destruct o; [apply B; congruence|apply A; reflexivity]).
      destruct (sub_at h l) as [[[n1 l1] r1]|] eqn:Sl.
      * destruct IHl as (l' & r' & ->). eauto.
      * rewrite IHl. destruct o as [p|]; [destruct B as [_ ->]; [congruence|]|destruct A as [_ ->]; [reflexivity|exact IHr]].
        (* the handle that was asked is in the left subtree *)
        destruct (sub_at h r) as [[[n1 l1] r1]|] eqn:Sr; [|reflexivity].
        destruct (Nat.eqb_spec h h') as [->|Qh]; [|eauto]. exfalso. revert El Sl. clear. revert l2 p.
        induction l as [|m a IHa b IHb]; intros l2 p E S; cbn [touch sub_at] in *; [discriminate|].
        destruct (Nat.eqb_spec (n_ref m) h') as [Q|Q]; [discriminate|].
        destruct (sub_at h' a) as [x|]; [discriminate|]. destruct (touch shs h' a) as [a2 [q|]]; [exact (IHa _ _ eq_refl eq_refl)|].
        destruct (touch shs h' b) as [b2 [q|]]; [exact (IHb _ _ eq_refl S)|discriminate].
Qed.
Lemma touch_answer : forall shs h (t : tree V), snd (touch shs h t) = match sub_at h t with Some (n, l, r) => Some (n_pos (apply_shifts shs n l r)) | None => None end.
Proof.
  intros shs h. induction t as [|n l IHl r IHr]; [reflexivity|]. cbn [touch sub_at]. destruct (_ =? _)%nat; [reflexivity|].
  destruct (touch shs h l) as [l2 o]. destruct (touch shs h r) as [r2 o2]. cbn [snd] in *. destruct o as [p|]; cbn [snd].
  - destruct (sub_at h l) as [[[n1 l1] r1]|]; [exact IHl|discriminate].
  - destruct (sub_at h l) as [[[n1 l1] r1]|]; [discriminate|]. exact IHr.
Qed.

(** the tree after its owner has asked some handles *)
Definition asked (t : itree V) (hs : list nat) : itree V := fold_left (fun t h => fst (it_pos t h)) hs t.
Lemma it_pos_parts : forall (t : itree V) h, t_root (fst (it_pos t h)) = fst (touch (t_shifts t) h (t_root t)) /\ t_shifts (fst (it_pos t h)) = t_shifts t /\ snd (it_pos t h) = snd (touch (t_shifts t) h (t_root t)).
Proof. intros t h. unfold it_pos. destruct (touch _ _ _). auto. Qed.
Lemma asked_more : forall hs (t : itree V) h n l r, sub_at h (t_root t) = Some (n, l, r) -> fresh (t_shifts t) n \/ In h hs ->
  t_shifts (asked t hs) = t_shifts t /\ exists n' l' r', sub_at h (t_root (asked t hs)) = Some (n', l', r') /\ fresh (t_shifts t) n'.
Proof.
  induction hs as [|h' hs IH]; intros t h n l r H F; unfold asked in *; cbn [fold_left].
  - split; [reflexivity|]. destruct F as [F|[]]. exists n, l, r. auto.
  - destruct (it_pos_parts t h') as (P1 & P2 & _). pose proof (touch_sub (t_shifts t) h' h (t_root t)) as T. rewrite H in T. destruct T as (l' & r' & T). rewrite <- P1 in T.
    specialize (IH (fst (it_pos t h')) h _ _ _ T). rewrite P2 in IH. apply IH. destruct (Nat.eqb_spec h h') as [->|Q].
    + left. apply apply_fresh.
    + destruct F as [F|[F|F]]; [left; exact F|congruence|right; exact F].
Qed.
Lemma asked_none : forall hs (t : itree V) h, sub_at h (t_root t) = None -> sub_at h (t_root (asked t hs)) = None.
Proof.
  induction hs as [|h' hs IH]; intros t h H; unfold asked in *; cbn [fold_left]; [exact H|]. apply IH.
  destruct (it_pos_parts t h') as (P1 & _). rewrite P1. pose proof (touch_sub (t_shifts t) h' h (t_root t)) as T. rewrite H in T. exact T.
Qed.
Lemma silent_asks : forall lk (t : itree V) hs,
  Forall (fun h => exists n l r, sub_at h (t_root t) = Some (n, l, r) /\ fresh (t_shifts t) n) hs ->
  exists ans, map Some ans = map (fun h => snd (it_pos t h)) hs /\ silent (memory_of (t_root t)) ans (p_asks lk (t_shifts t) hs).
Proof.
  intros lk t. induction hs as [|h hs IH]; intro F; [exists []; split; [reflexivity|constructor]|]. inversion F as [|? ? (n & l & r & H & Hn) F']; subst.
  destruct (IH F') as (ans & E & S). exists (n_pos n :: ans). cbn [map p_asks]. split.
  - f_equal; [|exact E]. rewrite (proj2 (proj2 (it_pos_parts t h))), touch_answer, H, (fresh_apply _ _ _ _ Hn). reflexivity.
  - eapply silent_bind; [eapply silent_pos; eassumption|]. eapply silent_bind; [exact S|]. constructor.
Qed.
Theorem quiet_right : forall (t : itree V) hs hss sched m ps, Forall (fun h => snd (it_pos t h) <> None) hs -> Forall (fun l => incl l hs) hss ->
  race (asked t hs) hss sched = (m, ps) ->
  m = memory_of (t_root (asked t hs)) /\
  forall i l ans, nth_error hss i = Some l -> nth_error ps i = Some (Ret ans) -> map Some ans = map (fun h => snd (it_pos (asked t hs) h)) l.
Proof.
  intros t hs hss sched m ps F G R. unfold race in R.
  assert (forall l, incl l hs -> exists ans, map Some ans = map (fun h => snd (it_pos (asked t hs) h)) l /\ silent (memory_of (t_root (asked t hs))) ans (p_asks (links_of (t_root (asked t hs))) (t_shifts (asked t hs)) l)) as K.
  { intros l I. apply silent_asks. rewrite Forall_forall. intros h Hh. rewrite Forall_forall in F. specialize (F h (I h Hh)).
    rewrite (proj2 (proj2 (it_pos_parts t h))), touch_answer in F. destruct (sub_at h (t_root t)) as [[[n a] b]|] eqn:E; [|congruence].
    destruct (asked_more hs t h n a b E (or_intror (I h Hh))) as (P & n' & l' & r' & P1 & P2). exists n', l', r'. rewrite P. auto. }
  assert (exists as_, List.length as_ = List.length hss /\ forall i l, nth_error hss i = Some l -> exists ans, nth_error as_ i = Some ans /\ map Some ans = map (fun h => snd (it_pos (asked t hs) h)) l /\
    silent (memory_of (t_root (asked t hs))) ans (p_asks (links_of (t_root (asked t hs))) (t_shifts (asked t hs)) l)) as (as_ & _ & H).
  { clear R. induction hss as [|l hss IH]; [exists []; split; [reflexivity|]; intros [|i] l N; discriminate|]. inversion G as [|? ? G1 G2]; subst.
    destruct (IH G2) as (as_ & L & H). destruct (K l G1) as (ans & E & S). exists (ans :: as_). split; [cbn; congruence|].
    intros [|i] l' N; cbn in N |- *; [injection N as <-; eauto|apply H; exact N]. }
  destruct (go_on_silent sched (memory_of (t_root (asked t hs))) (readers (asked t hs) hss) as_) as [M P].
  { intros i p N. unfold readers in N. rewrite nth_error_map in N. destruct (nth_error hss i) as [l|] eqn:E; [|discriminate]. injection N as <-.
    destruct (H i l E) as (ans & A & _ & S). eauto. }
  rewrite R in M, P. cbn [fst snd] in M, P. split; [exact M|]. intros i l ans N Np. destruct (P i _ Np) as (a & A & S). inversion S; subst.
  destruct (H i l N) as (ans' & A' & E & _). congruence.
Qed.
End Silent.
