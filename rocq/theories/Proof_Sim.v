(** Execution of one instruction respects related states: code addresses on the stack may be
    renamed by a relation, and the input cursor may be cached differently. *)
From Verif Require Import Base Model_Charset Model_Isa Model_Capture Model_Input Spec_Input Proof_Input Model_Code Model_VM Proof_Compile Proof_Emit.
Local Open Scope nat_scope.
Arguments Nat.max : simpl never.

Definition uses_next (i : insn) : bool :=
  match i with
  | IJump _ | ICommit _ | IPartialCommit _ | IBackCommit _ | IReturn | IFail | IFailTwice | IEnd _ => false
  | _ => true
  end.

Section Sim.
Variable bufsz : nat.
Hypothesis Hbuf : 0 < bufsz.
Variable T : Type.
Variable ops : table_ops T.
Variable CS : Type.
Variable check : nat -> CS -> list byte -> list byte -> nat -> Z -> Z -> CS * option nat.
Variable intrvl : option (nat * nat).
(** when [W] holds the text fits in one chunk *)
Variable W : Prop.
(** when [same] holds the cursors are also cached alike *)
Variable same : Prop.
Variable rho : nat -> nat -> Prop.
Notation okn := (okn W).
Notation mstate := (mstate T CS).

Definition srcR (a b : input) : Prop := (inv bufsz a /\ inv bufsz b /\ abs a = abs b) /\ (same -> a = b) /\ (W -> List.length (i_data b) <= bufsz).
Lemma srcR_refl : forall a, inv bufsz a -> (W -> List.length (i_data a) <= bufsz) -> srcR a a.
Proof. intros a H Hw. split; [split; [exact H|split; [exact H|reflexivity]]|split; [reflexivity|exact Hw]]. Qed.
Lemma srcR_pos : forall a b, srcR a b -> i_pos a = i_pos b. Proof. intros a b [(_ & _ & H) _]. unfold abs in H. congruence. Qed.
Lemma srcR_far : forall a b, srcR a b -> i_furthest a = i_furthest b. Proof. intros a b [(_ & _ & H) _]. unfold abs in H. congruence. Qed.
Lemma srcR_data : forall a b, srcR a b -> i_data a = i_data b. Proof. intros a b [(_ & _ & H) _]. unfold abs in H. congruence. Qed.
Lemma srcR_peek : forall a b, srcR a b -> fst (i_peek a) = fst (i_peek b) /\ srcR (snd (i_peek a)) (snd (i_peek b)).
Proof.
  intros a b H. pose proof (srcR_pos _ _ H) as Hp. pose proof (srcR_far _ _ H) as Hf. pose proof (srcR_data _ _ H) as Hd.
  destruct H as [(Ha & Hb & He) [Hsame Hw]]. split.
  - rewrite !(peek_val bufsz Hbuf) by assumption. congruence.
  - split; [|split; [intro Hx; rewrite (Hsame Hx); reflexivity|exact Hw]]. split; [apply peek_inv; assumption|]. split; [apply peek_inv; assumption|]. rewrite !(peek_abs bufsz Hbuf). congruence.
Qed.
Lemma srcR_seek : forall a b p, srcR a b -> srcR (snd (i_seek bufsz a p)) (snd (i_seek bufsz b p)).
Proof.
  intros a b p H. pose proof (srcR_far _ _ H) as Hf. pose proof (srcR_data _ _ H) as Hd. destruct H as [(Ha & Hb & He) [Hsame Hw]].
  destruct (seek_ok bufsz Hbuf a p Ha) as (A1 & A2 & _). destruct (seek_ok bufsz Hbuf b p Hb) as (B1 & B2 & _).
  split; [|split; [intro Hx; rewrite (Hsame Hx); reflexivity|intro Hx; apply (f_equal c_data) in B2; cbn in B2; cbn [c_data] in *; rewrite B2; exact (Hw Hx)]]. split; [exact A1|]. split; [exact B1|]. congruence.
Qed.
Lemma srcR_advance : forall a b n, srcR a b -> srcR (snd (i_advance bufsz a n)) (snd (i_advance bufsz b n)).
Proof.
  intros a b n H. pose proof (srcR_pos _ _ H) as Hp. pose proof (srcR_far _ _ H) as Hf. pose proof (srcR_data _ _ H) as Hd. pose proof H as H0. destruct H as [(Ha & Hb & He) [Hsame Hw]].
  destruct (advance_gen bufsz Hbuf a n Ha) as (A1 & A2). destruct (advance_gen bufsz Hbuf b n Hb) as (B1 & B2). cbv zeta in *.
  rewrite Hd, Hp in A2. split; [|split; [intro Hx; rewrite (Hsame Hx); reflexivity|intro Hx; assert (Ed : i_data (snd (i_advance bufsz b n)) = i_data b) by (destruct (_ <=? _); destruct B2 as [_ B2]; [rewrite B2; reflexivity|apply (f_equal c_data) in B2; exact B2]); rewrite Ed; exact (Hw Hx)]]. split; [exact A1|]. split; [exact B1|].
  destruct (List.length (i_data b) <=? i_pos b); destruct A2 as [_ A2], B2 as [_ B2]; rewrite A2, B2; congruence.
Qed.
Lemma srcR_advance1 : forall a b, srcR a b -> fst (i_advance bufsz a 1) = fst (i_advance bufsz b 1).
Proof.
  intros a b H. pose proof (srcR_pos _ _ H) as Hp. pose proof (srcR_data _ _ H) as Hd. destruct H as [(Ha & Hb & He) [Hsame Hw]].
  destruct (advance_1 bufsz Hbuf a Ha) as (_ & A). destruct (advance_1 bufsz Hbuf b Hb) as (_ & B). cbv zeta in *.
  rewrite Hp, Hd in A. destruct (i_pos b + 1 <=? List.length (i_data b)); congruence.
Qed.
Lemma srcR_advw : forall a b n, W -> n <> x00 -> srcR a b -> fst (i_advance bufsz a (N.to_nat (bN n))) = fst (i_advance bufsz b (N.to_nat (bN n))).
Proof.
  intros a b n Hw Hn H. pose proof (srcR_pos _ _ H) as Hp. pose proof (srcR_data _ _ H) as Hd. destruct H as [(Ha & Hb & He) [_ Hs]]. specialize (Hs Hw).
  assert (0 < N.to_nat (bN n)) by (destruct n; try (cbn; lia); congruence).
  rewrite !(advance_small bufsz Hbuf) by (rewrite ?Hd; assumption). rewrite Hp, Hd. reflexivity.
Qed.
Lemma srcR_advn : forall a b i n, same \/ okn i -> i = IAny n \/ (exists l, i = ITestAny n l) -> srcR a b ->
  fst (i_advance bufsz a (N.to_nat (bN n))) = fst (i_advance bufsz b (N.to_nat (bN n))).
Proof.
  intros a b i n [Hs|Ho] Hi H; [destruct H as [_ [H _]]; rewrite (H Hs); reflexivity|].
  assert (D : dotok W n) by (destruct Hi as [->|(l & ->)]; [exact Ho|left; exact Ho]).
  destruct D as [->|[Hw Hn]]; [exact (srcR_advance1 _ _ H)|exact (srcR_advw _ _ _ Hw Hn H)].
Qed.
Lemma srcR_before : forall a b, srcR a b -> i_peek_before a = i_peek_before b.
Proof.
  intros a b H. pose proof (srcR_pos _ _ H) as Hp. pose proof (srcR_data _ _ H) as Hd. destruct H as [(Ha & Hb & He) [Hsame Hw]].
  rewrite !(peek_before_val bufsz Hbuf) by assumption. rewrite Hp, Hd. reflexivity.
Qed.

Definition kR (k k' : skind) : Prop :=
  match k, k' with
  | KRet r, KRet r' => rho r r'
  | KBtrack a o, KBtrack a' o' => rho a a' /\ o = o'
  | _, _ => k = k'
  end.
Definition eR (e e' : sentry) : Prop := kR (s_kind e) (s_kind e') /\ s_capt e = s_capt e'.
Definition stkR := Forall2 eR.
Record stR (a b : mstate) : Prop := StR {
  r_src : srcR (m_src a) (m_src b);
  r_stk : stkR (m_stk a) (m_stk b);
  r_base : m_base a = m_base b;
  r_tbl : m_tbl a = m_tbl b;
  r_errs : m_errs a = m_errs b;
  r_cs : m_cs a = m_cs b;
  r_range : m_range a = m_range b }.
Definition resR (ia ib : nat) (r r' : step_res T CS) : Prop :=
  match r, r' with
  | Next a, Next b => stR a b /\ (rho (m_ip a) (m_ip b) \/ m_ip a = ia /\ m_ip b = ib)
  | Done o a, Done o' b => o = o' /\ stR a b
  | Crash, Crash => True
  | _, _ => False
  end.

Lemma stkR_len : forall k k', stkR k k' -> List.length k = List.length k'.
Proof. intros k k' H. induction H; simpl; congruence. Qed.
Lemma stR_pos : forall a b, stR a b -> mpos a = mpos b. Proof. intros a b H. apply srcR_pos. apply (r_src _ _ H). Qed.
Lemma stR_ip : forall a b x y, stR a b -> stR (set_ip x a) (set_ip y b). Proof. intros a b x y []. split; assumption. Qed.
Lemma stR_src : forall a b x y, stR a b -> srcR x y -> stR (set_src x a) (set_src y b). Proof. intros a b x y [] H. split; assumption. Qed.
Lemma stR_tbl : forall a b x, stR a b -> stR (set_tbl x a) (set_tbl x b). Proof. intros a b x []. split; try assumption. reflexivity. Qed.
Lemma stR_errs : forall a b x, stR a b -> stR (set_errs x a) (set_errs x b). Proof. intros a b x []. split; try assumption. reflexivity. Qed.
Lemma stR_cs : forall a b x, stR a b -> stR (set_cs x a) (set_cs x b). Proof. intros a b x []. split; try assumption. reflexivity. Qed.
Lemma stR_range : forall a b x, stR a b -> stR (set_range x a) (set_range x b). Proof. intros a b x []. split; try assumption. reflexivity. Qed.
Lemma stR_stk : forall a b k k' c, stR a b -> stkR k k' -> stR (set_stk k c a) (set_stk k' c b).
Proof. intros a b k k' c [] H. split; try assumption. reflexivity. Qed.
Lemma add_capt_R : forall cs k k' b, stkR k k' -> stkR (fst (add_capt cs k b)) (fst (add_capt cs k' b)) /\ snd (add_capt cs k b) = snd (add_capt cs k' b).
Proof.
  intros cs k k' b H. destruct H as [|e e' k k' He Hk]; simpl; [split; constructor|]. split; [|reflexivity]. constructor; [|exact Hk].
  destruct He as [H1 H2]. split; [exact H1|]. simpl. congruence.
Qed.
Lemma stR_add : forall a b cs, stR a b -> stR (add cs a) (add cs b).
Proof.
  intros a b cs H. unfold add. rewrite <- (r_base _ _ H). destruct (add_capt_R cs _ _ (m_base a) (r_stk _ _ H)) as [H1 H2].
  destruct (add_capt cs (m_stk a) (m_base a)) as [k c], (add_capt cs (m_stk b) (m_base a)) as [k' c']. simpl in *. subst c'. apply stR_stk; assumption.
Qed.
Lemma add_ip : forall cs (a : mstate), m_ip (add cs a) = m_ip a.
Proof. intros. unfold add. destruct (add_capt _ _ _). reflexivity. Qed.
Lemma stR_push : forall a b k k', stR a b -> kR k k' -> stR (push k a) (push k' b).
Proof.
  intros a b k k' H Hk. unfold push. rewrite (r_base _ _ H). apply stR_stk; [exact H|]. constructor; [|apply (r_stk _ _ H)]. split; [exact Hk|reflexivity].
Qed.
Definition optR (o o' : option sentry) : Prop := match o, o' with Some e, Some e' => eR e e' | None, None => True | _, _ => False end.
Lemma stR_pop : forall a b pg, stR a b -> optR (fst (pop pg a)) (fst (pop pg b)) /\ stR (snd (pop pg a)) (snd (pop pg b)).
Proof.
  intros a b pg H. unfold pop. pose proof (r_stk _ _ H) as Hk. destruct Hk as [|e e' k k' He Hk]; simpl; [split; [exact I|exact H]|].
  split; [exact He|]. destruct He as [_ He]. rewrite <- He, (r_base _ _ H). destruct pg; [apply stR_add|]; apply stR_stk; assumption.
Qed.
Lemma pop_ip : forall pg (a : mstate), m_ip (snd (pop pg a)) = m_ip a.
Proof. intros. unfold pop. destruct (m_stk a); [reflexivity|]. destruct pg; simpl; [rewrite add_ip|]; reflexivity. Qed.
Lemma stR_peek : forall a b, stR a b -> fst (peek a) = fst (peek b) /\ stR (snd (peek a)) (snd (peek b)).
Proof.
  intros a b H. unfold peek. destruct (srcR_peek _ _ (r_src _ _ H)) as [H1 H2]. destruct (i_peek (m_src a)), (i_peek (m_src b)). simpl in *.
  split; [exact H1|]. apply stR_src; assumption.
Qed.
Lemma peek_ip : forall (a : mstate), m_ip (snd (peek a)) = m_ip a.
Proof. intros. unfold peek. destruct (i_peek (m_src a)). reflexivity. Qed.
Lemma stR_advance : forall a b n, stR a b -> stR (advance bufsz n a) (advance bufsz n b).
Proof. intros. unfold advance. apply stR_src; [assumption|]. apply srcR_advance. apply r_src. assumption. Qed.
Lemma stR_advance1 : forall a b, stR a b -> stR (advance1 bufsz a) (advance1 bufsz b).
Proof. intros. apply (stR_advance _ _ 1). assumption. Qed.
Lemma stR_seek : forall a b p, stR a b -> stR (set_src (snd (i_seek bufsz (m_src a) p)) a) (set_src (snd (i_seek bufsz (m_src b) p)) b).
Proof. intros. apply stR_src; [assumption|]. apply srcR_seek. apply r_src. assumption. Qed.
Lemma stR_memoize : forall a b id pos ml cnt cs, stR a b -> stR (memoize ops intrvl id pos ml cnt cs a) (memoize ops intrvl id pos ml cnt cs b).
Proof.
  intros a b id pos ml cnt cs H. unfold memoize. rewrite (stR_pos _ _ H), (srcR_far _ _ (r_src _ _ H)), (r_tbl _ _ H). apply stR_tbl. exact H.
Qed.
Lemma do_fail_R : forall k k' a b, stkR k k' -> stR a b -> resR (m_ip a) (m_ip b) (do_fail bufsz ops intrvl k a) (do_fail bufsz ops intrvl k' b).
Proof.
  intros k k' a b Hk. revert a b. induction Hk as [|e e' k k' He Hk IH]; intros a b H.
  - simpl. rewrite (stR_pos _ _ H), (r_errs _ _ H), (r_base _ _ H). split; [reflexivity|]. apply stR_stk; [exact H|constructor].
  - destruct e as [d cs], e' as [d' cs']. destruct He as [Hd _]. cbn [s_kind] in Hd. destruct d, d'; cbn [kR] in Hd; try discriminate; try (destruct Hd; fail); cbn [do_fail s_kind].
    + apply IH. exact H.
    + destruct Hd as [Hr ->]. split; [|left; exact Hr]. apply stR_ip. rewrite (r_base _ _ H).
      apply (stR_seek (set_stk k (m_base b) a) (set_stk k' (m_base b) b)). apply stR_stk; assumption.
    + injection Hd as -> ->. exact (IH _ _ (stR_memoize _ _ _ _ _ _ _ H)).
    + split; [|right; split; reflexivity]. rewrite (r_base _ _ H). apply stR_stk; assumption.
    + apply IH. exact H.
    + apply IH. exact H.
Qed.
Lemma fail_R : forall a b, stR a b -> resR (m_ip a) (m_ip b) (fail bufsz ops intrvl a) (fail bufsz ops intrvl b).
Proof. intros a b H. apply do_fail_R; [apply r_stk|]; exact H. Qed.
Lemma resR_fail : forall ia ib a b, stR a b -> m_ip a = ia -> m_ip b = ib -> resR ia ib (fail bufsz ops intrvl a) (fail bufsz ops intrvl b).
Proof. intros ia ib a b H <- <-. apply fail_R. exact H. Qed.
Lemma span_R : forall n cs a b, stR a b -> stR (span_loop bufsz n cs a) (span_loop bufsz n cs b).
Proof.
  induction n as [|n IH]; intros cs a b H; cbn [span_loop]; destruct (stR_peek _ _ H) as [H1 H2]; destruct (peek a) as [x a'], (peek b) as [y b']; cbn [fst snd] in *; subst y.
  - exact H2.
  - destruct x as [x|]; [|exact H2]. destruct (cs_has cs x); [|exact H2]. apply IH. apply stR_advance1. exact H2.
Qed.
Lemma kR_tree : forall d d' i p c, kR d d' -> (d = KTree i p c <-> d' = KTree i p c).
Proof. intros d d' i p c H. destruct d, d'; cbn [kR] in H; split; intros E; try discriminate; try congruence. Qed.
Definition is_tree (d : skind) : option (Z * nat * nat) := match d with KTree i p c => Some (i, p, c) | _ => None end.
Lemma kR_is : forall d d', kR d d' -> is_tree d = is_tree d'.
Proof. intros d d' H. destruct d, d'; cbn [kR] in H; try discriminate; try reflexivity. injection H as -> -> ->. reflexivity. Qed.
Lemma is_tree_some : forall d i p c, is_tree d = Some (i, p, c) -> d = KTree i p c.
Proof. intros [] i p c H; try discriminate. injection H as -> -> ->. reflexivity. Qed.
Ltac tkind Hd d d' := let E1 := fresh "E" in let E2 := fresh "E" in
  pose proof (kR_is _ _ Hd) as E1; destruct (is_tree d') as [[[? ?] ?]|] eqn:E2;
  [apply is_tree_some in E1; apply is_tree_some in E2; subst d d'
  |destruct d; try discriminate; destruct d'; try discriminate].
Lemma tree_close_R : forall n id a b, stR a b -> stR (tree_close n id a) (tree_close n id b).
Proof.
  induction n as [|n IH]; intros id a b H; [exact H|]. cbn [tree_close]. pose proof (r_stk _ _ H) as Hk.
  destruct Hk as [|e e' k k' He Hk]; [exact H|]. destruct e as [d cs], e' as [d' cs']. destruct He as [Hd _]. cbn [s_kind] in Hd.
  tkind Hd d d'; try exact H.
  destruct (_ =? _)%Z; [|exact H]. apply IH. apply stR_pop. exact H.
Qed.
Lemma tree_pops_R : forall n a b, stR a b -> stR (tree_pops n a) (tree_pops n b).
Proof. induction n as [|n IH]; intros a b H; [exact H|]. cbn [tree_pops]. apply IH. apply stR_pop. exact H. Qed.
Lemma nth_R : forall k k' n, stkR k k' -> optR (nth_error k n) (nth_error k' n).
Proof. intros k k' n H. revert n. induction H; intros [|n]; simpl; auto. Qed.
Definition tree_add (ea : option sentry) (a2 : mstate) : mstate :=
  match ea with Some (SE (KTree _ epos _) ((_ :: _) as cs0)) => match intrvl with None => add [new_dummy epos (mpos a2 - epos) cs0] a2 | Some _ => add cs0 a2 end | _ => a2 end.
Lemma tree_add_R : forall ea eb a b, optR ea eb -> stR a b -> stR (tree_add ea a) (tree_add eb b).
Proof.
  intros ea eb a b O2 H. unfold tree_add. destruct ea as [[d c1]|], eb as [[d' c2]|]; cbn [optR] in O2; try contradiction; [|exact H].
  destruct O2 as [O1 O2]. cbn [s_kind s_capt] in *. subst c2. tkind O1 d d'; try exact H.
  destruct c1; [exact H|]. rewrite (stR_pos _ _ H). destruct intrvl; apply stR_add; exact H.
Qed.
Definition tree_fin (rec : mstate -> mstate) (nid : Z) (npos count : nat) (st : mstate) : mstate :=
  match m_stk st with
  | SE (KTree _ _ _) ncapt :: rest =>
      let st := set_stk (SE (KTree nid npos count) ncapt :: rest) (m_base st) st in
      rec (memoize ops intrvl nid npos (Some (mpos st - npos)) count ncapt st)
  | _ => st
  end.
Lemma tree_fin_R : forall rec nid npos count a b, (forall a b, stR a b -> stR (rec a) (rec b)) -> stR a b -> stR (tree_fin rec nid npos count a) (tree_fin rec nid npos count b).
Proof.
  intros rec nid npos count a b Hrec H. unfold tree_fin. pose proof (r_stk _ _ H) as Hk.
  destruct Hk as [|e e' k k' He Hk]; [exact H|]. destruct e as [d c1], e' as [d' c2]. destruct He as [Hd Hc]. cbn [s_kind s_capt] in *. subst c2.
  tkind Hd d d'; try exact H. cbv zeta.
  assert (H4 : stR (set_stk (SE (KTree nid npos count) c1 :: k) (m_base a) a) (set_stk (SE (KTree nid npos count) c1 :: k') (m_base b) b)).
  { rewrite (r_base _ _ H). apply stR_stk; [exact H|]. constructor; [split; reflexivity|exact Hk]. }
  apply Hrec. rewrite (stR_pos _ _ H4). apply stR_memoize. exact H4.
Qed.
Lemma tree_loop_S : forall n seen accum a, tree_loop ops intrvl (S n) seen accum a =
  match nth_error (m_stk a) seen, nth_error (m_stk a) (S seen) with
  | Some (SE (KTree _ _ tc) _), Some (SE (KTree nid npos nc) _) =>
      if accum + tc <? nc then tree_loop ops intrvl n (S seen) (accum + tc) a
      else let p := pop false (tree_pops (S seen - 1) a) in
           tree_fin (tree_loop ops intrvl n 0 0) nid npos (accum + tc + nc) (tree_add (fst p) (snd p))
  | _, _ => a
  end.
Proof.
  intros. cbn [tree_loop]. destruct (nth_error (m_stk a) seen) as [[[] ?]|]; try reflexivity. destruct (nth_error (m_stk a) (S seen)) as [[[] ?]|]; try reflexivity.
  destruct (_ <? _); [reflexivity|]. cbv zeta. destruct (pop false (tree_pops (S seen - 1) a)); reflexivity.
Qed.
Lemma tree_loop_R : forall n seen accum a b, stR a b -> stR (tree_loop ops intrvl n seen accum a) (tree_loop ops intrvl n seen accum b).
Proof.
  induction n as [|n IH]; intros seen accum a b H; [exact H|]. rewrite !tree_loop_S.
  pose proof (nth_R _ _ seen (r_stk _ _ H)) as N1. pose proof (nth_R _ _ (S seen) (r_stk _ _ H)) as N2.
  destruct (nth_error (m_stk a) seen) as [[d cs]|], (nth_error (m_stk b) seen) as [[d' cs']|]; cbn [optR] in N1; try contradiction; [|exact H].
  destruct N1 as [K1 _]. cbn [s_kind] in K1. tkind K1 d d'; try exact H.
  destruct (nth_error (m_stk a) (S seen)) as [[d cs2]|], (nth_error (m_stk b) (S seen)) as [[d' cs2']|]; cbn [optR] in N2; try contradiction; [|exact H].
  destruct N2 as [K2 _]. cbn [s_kind] in K2. tkind K2 d d'; try exact H.
  destruct (_ <? _); [apply IH; exact H|]. cbv zeta.
  pose proof (tree_pops_R (S seen - 1) _ _ H) as H1. destruct (stR_pop _ _ false H1) as [O2 H2].
  apply tree_fin_R; [intros; apply IH; assumption|]. apply tree_add_R; assumption.
Qed.
Lemma stR_node : forall id lo hi cs a b, stR a b -> stR (add_node intrvl id lo hi cs a) (add_node intrvl id lo hi cs b).
Proof.
  intros id lo hi cs a b H. unfold add_node. destruct (ivl_overlaps intrvl lo hi); [|exact H]. rewrite (r_range _ _ H). apply stR_add. apply stR_range. exact H.
Qed.
Lemma finish_R : forall ok a b, stR a b -> finish intrvl ok a = finish intrvl ok b.
Proof. intros ok a b H. unfold finish. rewrite (stR_pos _ _ H), (r_range _ _ H), (r_base _ _ H), (r_errs _ _ H). reflexivity. Qed.
Lemma resR_next : forall ia ib a b x y, stR a b -> rho x y -> resR ia ib (Next (set_ip x a)) (Next (set_ip y b)).
Proof. intros ia ib a b x y H Hr. split; [apply stR_ip; exact H|left; exact Hr]. Qed.

Ltac dpeek H a b := let H1 := fresh "E" in let H2 := fresh H in let P1 := fresh "P" in let P2 := fresh "P" in
  destruct (stR_peek _ _ H) as [H1 H2]; pose proof (peek_ip a) as P1; pose proof (peek_ip b) as P2; destruct (peek a) as [o a'], (peek b) as [o' b']; cbn [fst snd] in *; subst o'; rewrite <- ?P1, <- ?P2.
Ltac rstep := match goal with
  | |- resR _ _ (Next (set_ip _ _)) (Next (set_ip _ _)) => apply resR_next
  | |- resR _ _ (fail _ _ _ _) (fail _ _ _ _) => apply resR_fail
  | |- stR (advance1 _ _) (advance1 _ _) => apply stR_advance1
  | |- stR (advance _ _ _) (advance _ _ _) => apply stR_advance
  | |- stR (push _ _) (push _ _) => apply stR_push
  | |- stR (add _ _) (add _ _) => apply stR_add
  end.
Ltac dpop H a b pg := let O := fresh "O" in let H2 := fresh H in let P1 := fresh "P" in let P2 := fresh "P" in
  destruct (stR_pop _ _ pg H) as [O H2]; pose proof (pop_ip pg a) as P1; pose proof (pop_ip pg b) as P2;
  destruct (pop pg a) as [[[d cs]|] a'], (pop pg b) as [[[d' cs']|] b']; cbn [fst snd optR] in *; try contradiction; try exact I;
  rewrite <- ?P1, <- ?P2; destruct O as [Hk Hc]; cbn [s_kind s_capt] in Hk, Hc; subst cs'.
Lemma exec_R : forall f g i next next' a b, (forall l, insn_lbl i = Some l -> rho (f l) (g l)) -> same \/ okn i -> (uses_next i = true -> rho next next') -> stR a b ->
  resR (m_ip a) (m_ip b) (exec_d bufsz ops check intrvl (map_lbl f i) next a) (exec_d bufsz ops check intrvl (map_lbl g i) next' b).
Proof.
  intros f g i next next' a b Hl Hn Hx H. pose proof (stR_pos _ _ H) as Hp.
  destruct i; cbn [map_lbl exec_d]; try (specialize (Hl _ eq_refl)); try (specialize (Hx eq_refl)); try exact I.
  - (* Char *) dpeek H a b. destruct o as [c|]; [destruct (byte_eqb b0 c)|]; repeat rstep; auto.
  - (* Jump *) repeat rstep; auto.
  - (* Choice *) repeat rstep; auto. rewrite Hp. split; auto.
  - (* Call *) repeat rstep; auto.
  - (* Commit *) repeat rstep; auto. apply stR_pop. exact H.
  - (* Return *) dpop H a b true. destruct d, d'; cbn [kR] in Hk; try discriminate; try exact I; try (destruct Hk; fail). rstep; auto.
  - (* Fail *) repeat rstep; auto.
  - (* Set *) dpeek H a b. destruct o as [c|]; [destruct (cs_has s c)|]; repeat rstep; auto.
  - (* Any *) assert (Ho : fst (i_advance bufsz (m_src a) (N.to_nat (bN n))) = fst (i_advance bufsz (m_src b) (N.to_nat (bN n)))) by (eapply srcR_advn; eauto; apply H).
    pose proof (srcR_advance _ _ (N.to_nat (bN n)) (r_src _ _ H)) as Hs.
    destruct (i_advance bufsz (m_src a) (N.to_nat (bN n))) as [oa sa], (i_advance bufsz (m_src b) (N.to_nat (bN n))) as [ob sb]. cbn [fst snd] in *. subst ob.
    pose proof (stR_src _ _ _ _ H Hs) as H'. destruct oa; repeat rstep; auto.
  - (* PartialCommit *) pose proof (r_stk _ _ H) as Hk. destruct Hk as [|[d cs] [d' cs'] k k' He Hk]; [exact I|]. destruct He as [Hd Hc]. cbn [s_kind s_capt] in *. subst cs'.
    destruct d, d'; cbn [kR] in Hd; try discriminate; try exact I; try (destruct Hd; fail). destruct Hd as [Hd ->].
    rewrite <- (r_base _ _ H). destruct (add_capt_R cs _ _ (m_base a) Hk) as [H1 H2].
    destruct (add_capt cs k (m_base a)) as [k2 c2], (add_capt cs k' (m_base a)) as [k2' c2']. cbn [fst snd] in *. subst c2'. rstep; auto. rewrite Hp.
    apply stR_stk; [exact H|]. constructor; [|exact H1]. split; [split; auto|reflexivity].
  - (* Span *) rstep; auto. rewrite (srcR_data _ _ (r_src _ _ H)). apply span_R. exact H.
  - (* BackCommit *) dpop H a b true. destruct d, d'; cbn [kR] in Hk; try discriminate; try exact I; try (destruct Hk; fail). destruct Hk as [Hk ->]. rstep; auto. apply stR_seek. exact H0.
  - (* FailTwice *) rstep; [apply stR_pop; exact H|apply pop_ip|apply pop_ip].
  - (* Empty *) rewrite (srcR_before _ _ (r_src _ _ H)). dpeek H a b. destruct (_ =? _)%N; repeat rstep; auto.
  - (* TestChar *) dpeek H a b. destruct o as [c|]; [destruct (byte_eqb c b0)|]; repeat rstep; auto. rewrite (stR_pos _ _ H0). split; auto.
  - dpeek H a b. destruct o as [c|]; [destruct (byte_eqb c b0)|]; repeat rstep; auto.
  - dpeek H a b. destruct o as [c|]; [destruct (cs_has s c)|]; repeat rstep; auto. rewrite (stR_pos _ _ H0). split; auto.
  - dpeek H a b. destruct o as [c|]; [destruct (cs_has s c)|]; repeat rstep; auto.
  - (* TestAny *) assert (Ho : fst (i_advance bufsz (m_src a) (N.to_nat (bN n))) = fst (i_advance bufsz (m_src b) (N.to_nat (bN n)))) by (eapply srcR_advn; eauto; apply H).
    pose proof (srcR_advance _ _ (N.to_nat (bN n)) (r_src _ _ H)) as Hs.
    destruct (i_advance bufsz (m_src a) (N.to_nat (bN n))) as [oa sa], (i_advance bufsz (m_src b) (N.to_nat (bN n))) as [ob sb]. cbn [fst snd] in *. subst ob.
    pose proof (stR_src _ _ _ _ H Hs) as H'. destruct oa; repeat rstep; auto. rewrite Hp. split; auto.
  - (* End *) split; [apply finish_R; exact H|exact H].
  - (* MemoOpen *) rewrite (r_tbl _ _ H), Hp. destruct (t_get ops (m_tbl b) id (mpos b)) as [ent tbl].
    assert (Hp' : mpos (set_tbl tbl a) = mpos (set_tbl tbl b)) by exact Hp. pose proof (stR_tbl _ _ tbl H) as H'.
    destruct ent as [[[len|] ex cs]|]; rewrite ?Hp'; repeat rstep; auto. reflexivity.
  - (* MemoClose *) dpop H a b true. destruct d, d'; cbn [kR] in Hk; try discriminate; try exact I; try (destruct Hk; fail). injection Hk as -> ->. rstep; auto. rewrite (stR_pos _ _ H0). apply stR_memoize. exact H0.
  - (* MemoTreeOpen *) rewrite (r_tbl _ _ H), Hp. destruct (t_get ops (m_tbl b) id (mpos b)) as [ent tbl].
    assert (Hp' : mpos (set_tbl tbl a) = mpos (set_tbl tbl b)) by exact Hp. pose proof (stR_tbl _ _ tbl H) as H'.
    destruct ent as [[[len|] ex cs]|]; rewrite ?Hp'; repeat rstep; auto; try reflexivity.
    apply stR_peek. repeat rstep; auto. reflexivity.
  - (* MemoTreeInsert *) pose proof (r_stk _ _ H) as Hk. destruct Hk as [|[d cs] [d' cs'] k k' He Hk]; [exact I|]. destruct He as [Hd Hc]. cbn [s_kind s_capt] in *. subst cs'.
    destruct d, d'; cbn [kR] in Hd; try discriminate; try exact I; try (destruct Hd; fail). injection Hd as -> -> ->. rstep; auto.
    match goal with |- stR (memoize _ _ _ _ _ _ _ ?x) (memoize _ _ _ _ _ _ _ ?y) => assert (H1 : stR x y) end.
    { rewrite (r_base _ _ H). apply stR_stk; [exact H|]. constructor; [split; reflexivity|exact Hk]. }
    rewrite (stR_pos _ _ H1). apply stR_memoize. exact H1.
  - (* MemoTree *) rstep; auto. rewrite (stkR_len _ _ (r_stk _ _ H)). apply tree_loop_R. exact H.
  - (* MemoTreeClose *) rstep; auto. rewrite (stkR_len _ _ (r_stk _ _ H)). apply tree_close_R. exact H.
  - (* CaptureBegin *) repeat rstep; auto. rewrite Hp. reflexivity.
  - repeat rstep; auto. rewrite Hp. reflexivity.
  - dpop H a b false. destruct d, d'; cbn [kR] in Hk; try discriminate; try exact I; try (destruct Hk; fail). injection Hk as -> ->. rstep; auto. rewrite (stR_pos _ _ H0). apply stR_node. exact H0.
  - rstep; auto. rewrite Hp. apply stR_node. exact H.
  - repeat rstep; auto. rewrite Hp. reflexivity.
  - dpop H a b true. destruct d, d'; cbn [kR] in Hk; try discriminate; try exact I; try (destruct Hk; fail). injection Hk as -> -> ->.
    rewrite (stR_pos _ _ H0), (r_cs _ _ H0). unfold i_slice. rewrite (srcR_data _ _ (r_src _ _ H0)).
    match goal with |- context [check ?k ?c ?x ?y ?z ?u ?v] => destruct (check k c x y z u v) as [cs2 [n|]] end; repeat rstep; auto; apply stR_cs; exact H0.
  - rstep; auto. rewrite Hp, (r_errs _ _ H). apply stR_errs. exact H.
Qed.
End Sim.

(* ---------- two machines that synchronise after one or more steps of each ---------- *)
Section Sync.
Context {T CS : Type}.
Notation mstate := (mstate T CS).
Notation step_res := (step_res T CS).
Inductive reach (step : mstate -> step_res) : nat -> mstate -> step_res -> Prop :=
| reach_one : forall st r, step st = r -> reach step 1 st r
| reach_more : forall n st st' r, step st = Next st' -> reach step n st' r -> reach step (S n) st r.
Lemma reach_pos : forall step n st r, reach step n st r -> 0 < n.
Proof. intros step n st r H. destruct H; lia. Qed.
Lemma reach_app : forall step n m st st' r, reach step n st (Next st') -> reach step m st' r -> reach step (n + m) st r.
Proof.
  intros step n m st st' r H. remember (Next st') as x. revert st' Heqx. induction H; intros; subst.
  - econstructor; eassumption.
  - simpl. econstructor; [eassumption|]. eapply IHreach; [reflexivity|assumption].
Qed.
Definition as_run (r : step_res) : option (run_res T CS) := match r with Next _ => None | Done o st => Some (ROk o st) | Crash => Some RCrash end.
Lemma reach_run : forall step n st r f x, reach step n st r -> run step f st = Some x ->
  match r with Next st' => n < f /\ run step (f - n) st' = Some x | r => as_run r = Some x end.
Proof.
  intros step n st r f x H. revert f. induction H; intros f Hf.
  - destruct f as [|f]; [discriminate|]. simpl in Hf. rewrite H in Hf. destruct r; simpl; try exact Hf.
    rewrite Nat.sub_0_r. split; [|exact Hf]. destruct f; [discriminate|lia].
  - destruct f as [|f]; [discriminate|]. simpl in Hf. rewrite H in Hf. apply IHreach in Hf. destruct r; try exact Hf. split; [lia|apply Hf].
Qed.
Lemma run_reach : forall step n st r, reach step n st r ->
  match r with Next st' => forall f x, run step f st' = Some x -> run step (n + f) st = Some x | r => run step n st = as_run r end.
Proof.
  intros step n st r H. induction H.
  - destruct r; intros; simpl; rewrite H; try reflexivity; assumption.
  - destruct r; intros; simpl; rewrite H; auto.
Qed.
Variables (sa sb : mstate -> step_res).
Variable R D : mstate -> mstate -> Prop.
Definition sres (ra rb : step_res) : Prop :=
  match ra, rb with
  | Next a, Next b => R a b
  | Done o a, Done o' b => o = o' /\ D a b
  | Crash, Crash => True
  | _, _ => False
  end.
Definition rres (ra rb : run_res T CS) : Prop :=
  match ra, rb with
  | ROk o a, ROk o' b => o = o' /\ D a b
  | RCrash, RCrash => True
  | _, _ => False
  end.
Hypothesis sync : forall a b, R a b -> exists n m ra rb, reach sa n a ra /\ reach sb m b rb /\ sres ra rb.
Lemma sync_run : forall f a b x, R a b -> run sa f a = Some x -> exists f' y, run sb f' b = Some y /\ rres x y.
Proof.
  intro f. induction f as [f IH] using lt_wf_ind. intros a b x H Hr. destruct (sync _ _ H) as (n & m & ra & rb & H1 & H2 & H3).
  pose proof (reach_run _ _ _ _ _ _ H1 Hr) as A. pose proof (run_reach _ _ _ _ H2) as B. pose proof (reach_pos _ _ _ _ H1).
  destruct ra as [a'|o a'|], rb as [b'|o' b'|]; cbn [sres] in H3; try contradiction.
  - destruct A as [L A]. destruct (IH (f - n) ltac:(lia) a' b' x H3 A) as (f' & y & F1 & F2). exists (m + f'), y. auto.
  - cbn [as_run] in *. injection A as <-. exists m, (ROk o' b'). auto.
  - cbn [as_run] in *. injection A as <-. exists m, RCrash. auto.
Qed.
Lemma sync_back : forall f a b y, R a b -> run sb f b = Some y -> exists f' x, run sa f' a = Some x /\ rres x y.
Proof.
  intro f. induction f as [f IH] using lt_wf_ind. intros a b y H Hr. destruct (sync _ _ H) as (n & m & ra & rb & H1 & H2 & H3).
  pose proof (reach_run _ _ _ _ _ _ H2 Hr) as B. pose proof (run_reach _ _ _ _ H1) as A. pose proof (reach_pos _ _ _ _ H2).
  destruct ra as [a'|o a'|], rb as [b'|o' b'|]; cbn [sres] in H3; try contradiction.
  - destruct B as [L B]. destruct (IH (f - m) ltac:(lia) a' b' y H3 B) as (f' & x & F1 & F2). exists (n + f'), x. auto.
  - cbn [as_run] in *. injection B as <-. exists n, (ROk o a'). auto.
  - cbn [as_run] in *. injection B as <-. exists n, RCrash. auto.
Qed.
End Sync.
