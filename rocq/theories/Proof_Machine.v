(** Continuation-passing rules for the machine on instruction lists: each rule says that a
    configuration leads to the wanted result if the configuration after one instruction does. *)
From Verif Require Import Base Model_Charset Model_Isa Model_Capture Model_Input Spec_Input Proof_Input Model_VM Model_Pattern Spec_Peg Proof_Eval Proof_Codegen.
Local Open Scope nat_scope.
Arguments Nat.max : simpl never.

Lemma flat_app : forall a b, flat (a ++ b) = flat a ++ flat b.
Proof. induction a as [|c a IH]; intro b; simpl; [reflexivity|]. rewrite IH, app_assoc. reflexivity. Qed.
Lemma flat1_eq : forall d id st ln cs, flat1 (Capture d id st ln cs) = if d then flat cs else [CNode id st ln (flat cs)].
Proof.
  intros. simpl. replace ((fix go (cs0 : list capture) : list ctree := match cs0 with [] => [] | c :: cs1 => flat1 c ++ go cs1 end) cs) with (flat cs); [reflexivity|].
  induction cs as [|c cs IH]; simpl; congruence.
Qed.

Lemma lbl_index_aux_no : forall p l i acc, ~ In l (labels p) -> lbl_index_aux p l i acc = acc.
Proof.
  induction p as [|ins p IH]; intros l i acc H; [reflexivity|].
  destruct ins; simpl in *; try (apply IH; exact H).
  destruct (Nat.eqb_spec l0 l); [subst; tauto|]. apply IH. tauto.
Qed.
Lemma nth_label_in : forall p k l, nth_error p k = Some (ILabel l) -> In l (labels p).
Proof.
  induction p as [|ins p IH]; intros [|k] l H; try discriminate.
  - injection H as ->. left. reflexivity.
  - apply IH in H. destruct ins; simpl; auto.
Qed.
Lemma lbl_index_aux_at : forall p k l i acc, NoDup (labels p) -> nth_error p k = Some (ILabel l) -> lbl_index_aux p l i acc = i + k.
Proof.
  induction p as [|ins p IH]; intros [|k] l i acc Hn H; try discriminate.
  - injection H as ->. simpl in *. rewrite Nat.eqb_refl, lbl_index_aux_no; [lia|]. inversion Hn; assumption.
  - simpl in H. destruct ins; simpl in *; try (rewrite (IH k) by assumption; lia).
    inversion Hn; subst. rewrite (IH k) by assumption. lia.
Qed.
Lemma lbl_index_at : forall p k l, NoDup (labels p) -> nth_error p k = Some (ILabel l) -> lbl_index p l = k.
Proof. intros. unfold lbl_index. rewrite (lbl_index_aux_at p k) by assumption. reflexivity. Qed.

Section Machine.
Variable bufsz : nat.
Hypothesis Hbuf : 0 < bufsz.
Variable T : Type.
Variable ops : table_ops T.
Variable CS : Type.
Variable check : nat -> CS -> list byte -> list byte -> nat -> Z -> Z -> CS * option nat.
Variable intrvl : option (nat * nat).
Variable s : list byte.
Variable P : program.
(** invariant of the memoization table, given how far the input has been examined *)
Variable TI : T -> nat -> Prop.
Hypothesis TI_mono : forall t F F', TI t F -> F <= F' -> TI t F'.
Notation world := (world CS).
Notation mstate := (mstate T CS).
Notation step := (sym_step bufsz ops check intrvl P).
Notation do_fail := (do_fail bufsz ops intrvl).
(** states at which the analysis may stop; at a label or return it may go on instead *)
Variable X : mstate -> Prop.
Hypothesis X_inv : forall st, X st -> (exists l, nth_error P (m_ip st) = Some (ILabel l)) \/ nth_error P (m_ip st) = Some IReturn ->
  exists st', step st = Next st' /\ X st'.

Inductive wp (Q : outcome -> mstate -> Prop) : mstate -> Prop :=
| wp_next : forall st st', step st = Next st' -> wp Q st' -> wp Q st
| wp_done : forall st o st', step st = Done o st' -> Q o st' -> wp Q st
| wp_stop : forall st, X st -> wp Q st.
Definition wpr (Q : outcome -> mstate -> Prop) (r : step_res T CS) : Prop :=
  match r with Next st => wp Q st | Done o st => Q o st | Crash => False end.
Lemma wp_step : forall Q st, wpr Q (step st) -> wp Q st.
Proof. intros Q st H. destruct (step st) eqn:E; simpl in H; [eapply wp_next|eapply wp_done|destruct H]; eauto. Qed.
Lemma wp_inv : forall Q st, (exists l, nth_error P (m_ip st) = Some (ILabel l)) \/ nth_error P (m_ip st) = Some IReturn -> wp Q st -> wpr Q (step st).
Proof.
  intros Q st Hi H. destruct H; try (rewrite H; assumption). destruct (X_inv _ H Hi) as (st' & E & H'). rewrite E. apply wp_stop. exact H'.
Qed.

Lemma wp_back : forall (Q : outcome -> mstate -> Prop) (Y : mstate -> Prop), (forall st st', step st = Next st' -> Y st' -> Y st) -> (forall st o st', step st = Done o st' -> Q o st' -> Y st) ->
  (forall st, X st -> Y st) -> forall st, wp Q st -> Y st.
Proof. intros Q Y H1 H2 H3 st H. induction H; eauto. Qed.
Lemma wp_run : forall Q st, (forall st, ~ X st) -> wp Q st -> exists fuel o st', run step fuel st = Some (ROk o st') /\ Q o st'.
Proof.
  intros Q st HX H. induction H.
  - destruct IHwp as (f & o & st2 & H1 & H2). exists (S f), o, st2. simpl. rewrite H. auto.
  - exists 1, o, st'. simpl. rewrite H. auto.
  - elim (HX _ H).
Qed.

(** the input cursor is at [i], and Peek has been called at most at [F] *)
Definition srcok (src : input) (i F : nat) : Prop :=
  inv bufsz src /\ abs src = Cursor s i F /\ i <= List.length s.
(** the same, but possibly behind the end of the text: a failing Any(n) leaves it there *)
Definition srcok0 (src : input) (i F : nat) : Prop := inv bufsz src /\ abs src = Cursor s i F.
Lemma srcok_0 : forall src i F, srcok src i F -> srcok0 src i F.
Proof. intros src i F (H1 & H2 & _). split; assumption. Qed.

Definition G (Q : outcome -> mstate -> Prop) (ip i : nat) (w : world) (stk : list sentry) (base : list capture) (F : nat) : Prop :=
  forall src tbl rng, srcok src i F -> TI tbl F -> wp Q (MS ip src stk base tbl (fst w) (snd w) rng).
Definition ntop (stk : list sentry) : Prop := match stk with SE (KTree _ _ _) _ :: _ => False | _ => True end.
(** the machine fails with the stack [stk] (whatever captures its top entry has) *)
Definition FL (Q : outcome -> mstate -> Prop) (w : world) (stk : list sentry) (base : list capture) (F : nat) : Prop :=
  forall src tbl rng i cs ip stk0, srcok0 src i F -> TI tbl F ->
    wpr Q (do_fail (fst (add_capt cs stk base)) (MS ip src stk0 (snd (add_capt cs stk base)) tbl (fst w) (snd w) rng)).
(** the parse is aborted at [j] *)
Definition AB (Q : outcome -> mstate -> Prop) (j : nat) (w : world) (F : nat) : Prop :=
  forall src tbl rng ip stk base, srcok src j F -> TI tbl F ->
    let st := MS ip src stk base tbl (fst w) (snd w) rng in Q (finish intrvl false st) st.

Lemma add_nil : forall stk base, add_capt [] stk base = (stk, base).
Proof. intros [|[k c] stk] base; simpl; rewrite app_nil_r; reflexivity. Qed.
Lemma add_app : forall a b stk base, add_capt b (fst (add_capt a stk base)) (snd (add_capt a stk base)) = add_capt (a ++ b) stk base.
Proof. intros a b [|[k c] stk] base; simpl; rewrite app_assoc; reflexivity. Qed.
Lemma ntop_add : forall cs stk base, ntop stk -> ntop (fst (add_capt cs stk base)).
Proof. intros cs [|[k c] stk] base; simpl; auto. Qed.

Lemma FL_add : forall Q w cs stk base F, FL Q w stk base F -> FL Q w (fst (add_capt cs stk base)) (snd (add_capt cs stk base)) F.
Proof. intros Q w cs stk base F H src tbl rng i cs' ip stk0 H1 H2. rewrite add_app. eapply H; eauto. Qed.

Lemma do_fail_stk : forall stk ip src k0 k1 base tbl e (c : CS) rng, do_fail stk (MS ip src k0 base tbl e c rng) = do_fail stk (MS ip src k1 base tbl e c rng).
Proof.
  induction stk as [|[k cs] stk IH]; intros; simpl; [reflexivity|]. destruct k; simpl; try apply IH; reflexivity.
Qed.

Lemma srcok_F : forall src i F, srcok src i F -> i_furthest src = F.
Proof. intros src i F (_ & H & _). unfold abs in H. congruence. Qed.
Lemma srcok_pos : forall src i F, srcok src i F -> i_pos src = i.
Proof. intros src i F (_ & H & _). unfold abs in H. congruence. Qed.
Lemma srcok_data : forall src i F, srcok src i F -> i_data src = s.
Proof. intros src i F (_ & H & _). unfold abs in H. congruence. Qed.
Lemma srcok_peek : forall src i F, srcok src i F -> fst (i_peek src) = nth_error s i /\ srcok (snd (i_peek src)) i (Nat.max F i).
Proof.
  intros src i F H. pose proof (srcok_F _ _ _ H) as HF. pose proof (srcok_pos _ _ _ H) as Hp. pose proof (srcok_data _ _ _ H) as Hd.
  destruct H as (Hi & Ha & Hl). split.
  - rewrite (peek_val bufsz Hbuf) by assumption. congruence.
  - split; [apply peek_inv; assumption|]. split; [|exact Hl]. rewrite (peek_abs bufsz Hbuf). congruence.
Qed.
Lemma srcok_seek0 : forall src i F j, srcok0 src i F -> j <= List.length s -> srcok (snd (i_seek bufsz src j)) j F.
Proof.
  intros src i F j (Hi & Ha) Hj. assert (HF : i_furthest src = F) by (unfold abs in Ha; congruence). assert (Hd : i_data src = s) by (unfold abs in Ha; congruence).
  destruct (seek_ok bufsz Hbuf src j Hi) as (H1 & H2 & _).
  split; [exact H1|]. split; [congruence|exact Hj].
Qed.
Lemma srcok_seek : forall src i F j, srcok src i F -> j <= List.length s -> srcok (snd (i_seek bufsz src j)) j F.
Proof. intros src i F j H. apply (srcok_seek0 src i F j). apply srcok_0. exact H. Qed.
Lemma srcok_advance : forall src i F n, srcok src i F -> i + n <= List.length s -> srcok (snd (i_advance bufsz src n)) (i + n) F.
Proof.
  intros src i F n H Hn. pose proof (srcok_F _ _ _ H) as HF. pose proof (srcok_data _ _ _ H) as Hd. pose proof (srcok_pos _ _ _ H) as Hp.
  destruct H as (Hi & Ha & Hl). destruct (advance_gen bufsz Hbuf src n Hi) as (H1 & H2). cbv zeta in *.
  rewrite Hd, Hp, HF in *. split; [exact H1|]. split; [|exact Hn].
  destruct (Nat.leb_spec (List.length s) i).
  - destruct H2 as [_ ->]. replace (i + n) with i by lia. exact Ha.
  - destruct H2 as [_ ->]. reflexivity.
Qed.
Lemma srcok_advance1 : forall src i F, srcok src i F ->
  let r := i_advance bufsz src 1 in
  if i <? List.length s then fst r = true /\ srcok (snd r) (S i) F else fst r = false /\ srcok (snd r) i F.
Proof.
  intros src i F H. pose proof (srcok_F _ _ _ H) as HF. pose proof (srcok_data _ _ _ H) as Hd. pose proof (srcok_pos _ _ _ H) as Hp.
  destruct H as (Hi & Ha & Hl). destruct (advance_1 bufsz Hbuf src Hi) as (H1 & H2). cbv zeta in *.
  rewrite Hd, Hp, HF in *.
  destruct (Nat.ltb_spec i (List.length s)); destruct (Nat.leb_spec (i + 1) (List.length s)); try lia;
    apply pair_equal_spec in H2; destruct H2 as [H2 H3].
  - split; [exact H2|]. split; [exact H1|]. split; [|lia]. rewrite H3. f_equal. lia.
  - split; [exact H2|]. split; [exact H1|]. split; [|lia]. rewrite H3. exact Ha.
Qed.

Lemma srcok_advn : forall src i F n, srcok src i F -> List.length s <= bufsz -> 0 < n ->
  let r := i_advance bufsz src n in
  if i + n <=? List.length s then fst r = true /\ srcok (snd r) (i + n) F else fst r = false /\ exists j, srcok0 (snd r) j F.
Proof.
  intros src i F n H Hb Hn. cbv zeta. pose proof (srcok_data _ _ _ H) as Hd. pose proof (srcok_pos _ _ _ H) as Hp. pose proof (srcok_F _ _ _ H) as HF.
  destruct (Nat.leb_spec (i + n) (List.length s)) as [L|L].
  - split; [|apply srcok_advance; assumption]. destruct H as (Hi & _ & _). rewrite advance_small by (try assumption; rewrite Hd; assumption).
    rewrite Hp, Hd. apply Nat.leb_le. exact L.
  - split.
    + destruct H as (Hi & _ & _). rewrite advance_small by (try assumption; rewrite Hd; assumption). rewrite Hp, Hd. apply Nat.leb_gt. exact L.
    + destruct H as (Hi & Ha & _). destruct (advance_gen bufsz Hbuf src n Hi) as (H1 & H2). cbv zeta in *. rewrite Hd, Hp, HF in *.
      destruct (List.length s <=? i); destruct H2 as [_ H2]; [exists i|exists (i + n)]; (split; [exact H1|]).
      * rewrite H2. exact Ha.
      * exact H2.
Qed.

Notation at_ k i := (nth_error P k = Some i).

Ltac enter Hp := intros src tbl rng Hs Ht; apply wp_step; unfold sym_step; cbn [m_ip]; rewrite Hp; cbn [map_lbl exec_d].

Lemma G_label : forall Q k l i w stk base F, at_ k (ILabel l) -> G Q (S k) i w stk base F -> G Q k i w stk base F.
Proof. intros Q k l i w stk base F Hp H. enter Hp. apply H; assumption. Qed.
Lemma G_label_inv : forall Q k l i w stk base F, at_ k (ILabel l) -> G Q k i w stk base F -> G Q (S k) i w stk base F.
Proof.
  intros Q k l i w stk base F Hp H src tbl rng Hs Ht. specialize (H src tbl rng Hs Ht). apply wp_inv in H; [|left; eexists; exact Hp].
  unfold sym_step in H. cbn [m_ip] in H. rewrite Hp in H. exact H.
Qed.
Lemma G_labels : forall Q k i w stk base F v, k <= v -> (forall z, k <= z < v -> exists l, at_ z (ILabel l)) ->
  G Q k i w stk base F -> G Q v i w stk base F.
Proof.
  intros Q k i w stk base F v H. induction H; intros Hl HG; [exact HG|].
  destruct (Hl m) as (l & E); [lia|]. eapply G_label_inv; [exact E|]. apply IHle; [|exact HG]. intros z Hz. apply Hl. lia.
Qed.

Lemma G_ret : forall Q k r cs i w stk base F, at_ k IReturn ->
  G Q r i w (fst (add_capt cs stk base)) (snd (add_capt cs stk base)) F -> G Q k i w (SE (KRet r) cs :: stk) base F.
Proof.
  intros Q k r cs i w stk base F Hp H. enter Hp. unfold pop, add. cbn -[add_capt].
  destruct (add_capt cs stk base) as [k' b'] eqn:Ea. apply H; assumption.
Qed.
(** a return behaves alike wherever it is *)
Lemma G_ret_move : forall Q u v i w stk base F, at_ u IReturn -> at_ v IReturn -> G Q u i w stk base F -> G Q v i w stk base F.
Proof.
  intros Q u v i w stk base F Hu Hv H. enter Hv. specialize (H src tbl rng Hs Ht). apply wp_inv in H; [|right; exact Hu].
  unfold sym_step in H. cbn [m_ip] in H. rewrite Hu in H. cbn [map_lbl exec_d] in H.
  unfold pop, add in *. cbn -[add_capt] in *. destruct stk as [|[[] cs] stk]; try exact H.
  all: cbn [s_capt] in *; destruct (add_capt cs stk base); exact H.
Qed.
Lemma G_tail : forall Q k i w stk base F v, tailp P k -> at_ v IReturn -> G Q k i w stk base F -> G Q v i w stk base F.
Proof.
  intros Q k i w stk base F v (u & Hu & H1 & H2) Hv H. eapply G_ret_move; [exact H1|exact Hv|]. eapply G_labels; eauto.
Qed.

Lemma G_jump : forall Q k l i w stk base F, at_ k (IJump l) -> G Q (lbl_index P l) i w stk base F -> G Q k i w stk base F.
Proof. intros Q k l i w stk base F Hp H. enter Hp. apply H; assumption. Qed.
Lemma G_choice : forall Q k l i w stk base F, at_ k (IChoice l) ->
  G Q (S k) i w (SE (KBtrack (lbl_index P l) i) [] :: stk) base F -> G Q k i w stk base F.
Proof.
  intros Q k l i w stk base F Hp H. enter Hp. unfold push, mpos. cbn. rewrite (srcok_pos _ _ _ Hs). apply H; assumption.
Qed.
Lemma G_call : forall Q k l i w stk base F, at_ k (ICall l) ->
  G Q (lbl_index P l) i w (SE (KRet (S k)) [] :: stk) base F -> G Q k i w stk base F.
Proof. intros Q k l i w stk base F Hp H. enter Hp. apply H; assumption. Qed.
Lemma G_commit : forall Q k l e i w stk base F, at_ k (ICommit l) ->
  G Q (lbl_index P l) i w (fst (add_capt (s_capt e) stk base)) (snd (add_capt (s_capt e) stk base)) F -> G Q k i w (e :: stk) base F.
Proof.
  intros Q k l e i w stk base F Hp H. enter Hp. unfold pop, add. cbn -[add_capt].
  destruct (add_capt (s_capt e) stk base) as [k' b'] eqn:Ea. apply H; assumption.
Qed.
Lemma G_partial : forall Q k l b off cs i w stk base F, at_ k (IPartialCommit l) ->
  G Q (lbl_index P l) i w (SE (KBtrack b i) [] :: fst (add_capt cs stk base)) (snd (add_capt cs stk base)) F ->
  G Q k i w (SE (KBtrack b off) cs :: stk) base F.
Proof.
  intros Q k l b off cs i w stk base F Hp H. enter Hp. cbn -[add_capt].
  destruct (add_capt cs stk base) as [k' b'] eqn:Ea. unfold mpos. cbn. rewrite (srcok_pos _ _ _ Hs). apply H; assumption.
Qed.
Lemma G_backcommit : forall Q k l b off cs i w stk base F, at_ k (IBackCommit l) -> off <= List.length s ->
  G Q (lbl_index P l) off w (fst (add_capt cs stk base)) (snd (add_capt cs stk base)) F ->
  G Q k i w (SE (KBtrack b off) cs :: stk) base F.
Proof.
  intros Q k l b off cs i w stk base F Hp Ho H. enter Hp. unfold pop, add. cbn -[add_capt i_seek].
  destruct (add_capt cs stk base) as [k' b'] eqn:Ea. cbn -[i_seek]. apply H; [|assumption]. eapply srcok_seek; eassumption.
Qed.
Lemma FL_here0 : forall Q w stk base F src tbl rng i ip stk0, FL Q w stk base F -> srcok0 src i F -> TI tbl F ->
  wpr Q (do_fail stk (MS ip src stk0 base tbl (fst w) (snd w) rng)).
Proof.
  intros Q w stk base F src tbl rng i ip stk0 H Hs Ht. specialize (H src tbl rng i [] ip stk0 Hs Ht).
  rewrite add_nil in H. exact H.
Qed.
Lemma FL_here : forall Q w stk base F src tbl rng i ip stk0, FL Q w stk base F -> srcok src i F -> TI tbl F ->
  wpr Q (do_fail stk (MS ip src stk0 base tbl (fst w) (snd w) rng)).
Proof. intros. eapply FL_here0; [eassumption|apply srcok_0; eassumption|assumption]. Qed.
Lemma G_fail : forall Q k i w stk base F, at_ k IFail -> FL Q w stk base F -> G Q k i w stk base F.
Proof. intros Q k i w stk base F Hp H. enter Hp. unfold fail. cbn. eapply FL_here; eassumption. Qed.
Lemma G_failtwice : forall Q k i w e stk base F, at_ k IFailTwice -> FL Q w stk base F -> G Q k i w (e :: stk) base F.
Proof. intros Q k i w e stk base F Hp H. enter Hp. unfold fail, pop. cbn. eapply FL_here; eassumption. Qed.

(** how far Peek has been called after a byte test at [i] *)
Definition fx (ins : insn) (F i : nat) : nat := match ins with IAny _ => F | _ => Nat.max F i end.
Lemma fx_le : forall ins F i, F <= fx ins F i. Proof. intros. unfold fx. destruct ins; lia. Qed.
Lemma fx_px : forall ins F i, px [ins] i <= S (fx ins F i). Proof. intros. unfold fx. destruct ins; simpl; lia. Qed.

(** Any(n) for n other than 1 only if the text is in one chunk *)
Hypothesis Hany : forall n, In (IAny n) P -> n = x01 \/ List.length s <= bufsz.
Lemma G_char : forall Q k ins i w stk base F, at_ k ins -> charlike ins = true ->
  (cm s ins i -> G Q (S k) (i + wd ins) w stk base (fx ins F i)) ->
  (nomatch s ins i -> FL Q w stk base (fx ins F i)) ->
  G Q k i w stk base F.
Proof.
  intros Q k ins i w stk base F Hp Hc H1 H2. destruct ins; try discriminate; enter Hp; cbn [fx] in *.
  - unfold peek. cbn [m_src]. destruct (srcok_peek _ _ _ Hs) as [Hv Hs']. destruct (i_peek src) as [c src']. cbn [fst snd] in *. subst c.
    unfold nomatch in H2. destruct (nth_error s i) as [c|] eqn:En.
    + cbn [cmatch] in *. destruct (byte_eqb b c) eqn:Eb.
      * specialize (H1 (ex_intro _ c (conj En Eb))). cbn [wd] in H1. rewrite Nat.add_1_r in H1. unfold advance1. cbn [m_src set_src]. pose proof (srcok_advance1 _ _ _ Hs') as Ha. cbv zeta in Ha.
        assert (i < List.length s) by (apply nth_error_Some; congruence). apply Nat.ltb_lt in H. rewrite H in Ha.
        destruct Ha as [_ Ha]. cbn -[i_advance]. apply H1; [exact Ha|]. eapply TI_mono; [eassumption|lia].
      * unfold fail. cbn. eapply FL_here; [apply H2; reflexivity|exact Hs'|]. eapply TI_mono; [eassumption|lia].
    + unfold fail. cbn. eapply FL_here; [apply H2; exact I|exact Hs'|]. eapply TI_mono; [eassumption|lia].
  - unfold peek. cbn [m_src]. destruct (srcok_peek _ _ _ Hs) as [Hv Hs']. destruct (i_peek src) as [c src']. cbn [fst snd] in *. subst c.
    unfold nomatch in H2. destruct (nth_error s i) as [c|] eqn:En.
    + cbn [cmatch] in *. destruct (cs_has s0 c) eqn:Eb.
      * specialize (H1 (ex_intro _ c (conj En Eb))). cbn [wd] in H1. rewrite Nat.add_1_r in H1. unfold advance1. cbn [m_src set_src]. pose proof (srcok_advance1 _ _ _ Hs') as Ha. cbv zeta in Ha.
        assert (i < List.length s) by (apply nth_error_Some; congruence). apply Nat.ltb_lt in H. rewrite H in Ha.
        destruct Ha as [_ Ha]. cbn -[i_advance]. apply H1; [exact Ha|]. eapply TI_mono; [eassumption|lia].
      * unfold fail. cbn. eapply FL_here; [apply H2; reflexivity|exact Hs'|]. eapply TI_mono; [eassumption|lia].
    + unfold fail. cbn. eapply FL_here; [apply H2; exact I|exact Hs'|]. eapply TI_mono; [eassumption|lia].
  - cbn [charlike] in Hc. apply negb_true_iff in Hc. apply byte_eqb_neq in Hc. cbn [cm wd nomatch] in *. cbn [m_src].
    assert (Hn : 0 < N.to_nat (bN n)) by (destruct n; try contradiction; cbn; lia).
    destruct (Hany n (nth_error_In _ _ Hp)) as [->|Hsm].
    + change (N.to_nat (bN x01)) with 1 in *. pose proof (srcok_advance1 _ _ _ Hs) as Ha. cbv zeta in Ha. destruct (i_advance bufsz src 1) as [ok src'].
      destruct (Nat.ltb_spec i (List.length s)) as [L|L]; cbn [fst snd] in Ha; destruct Ha as [-> Ha].
      * cbn. apply H1; [lia| |assumption]. rewrite Nat.add_1_r. exact Ha.
      * unfold fail. cbn. eapply FL_here; [apply H2; lia|exact Ha|assumption].
    + pose proof (srcok_advn _ _ _ _ Hs Hsm Hn) as Ha. cbv zeta in Ha. destruct (i_advance bufsz src (N.to_nat (bN n))) as [ok src'].
      destruct (Nat.leb_spec (i + N.to_nat (bN n)) (List.length s)) as [L|L]; cbn [fst snd] in Ha; destruct Ha as [-> Ha].
      * cbn. apply H1; assumption.
      * destruct Ha as (j & Ha). unfold fail. cbn. eapply FL_here0; [apply H2; lia|exact Ha|assumption].
Qed.

(** tests that jump instead of failing *)
Lemma G_test : forall Q k h L t i w stk base F, test_of h L = Some t -> at_ k t ->
  (forall b, nth_error s i = Some b -> cmatch h b = true -> G Q (S k) (S i) w stk base (Nat.max F i)) ->
  (nomatch s h i -> G Q (lbl_index P L) i w stk base (Nat.max F i)) ->
  G Q k i w stk base F.
Proof.
  intros Q k h L t i w stk base F Hh Hp H1 H2. destruct h; try discriminate; injection Hh as <-; enter Hp.
  - unfold peek. cbn [m_src]. destruct (srcok_peek _ _ _ Hs) as [Hv Hs']. destruct (i_peek src) as [c src']. cbn [fst snd] in *. subst c.
    unfold nomatch in H2. assert (Ht' : TI tbl (Nat.max F i)) by (eapply TI_mono; [eassumption|lia]).
    destruct (nth_error s i) as [c|] eqn:En.
    + cbn [cmatch] in *. replace (byte_eqb c b) with (byte_eqb b c) by (destruct (byte_eqb b c) eqn:E; symmetry; [apply byte_eqb_eq; apply byte_eqb_eq in E|apply byte_eqb_neq; apply byte_eqb_neq in E]; congruence).
      destruct (byte_eqb b c) eqn:Eb.
      * specialize (H1 c eq_refl Eb). unfold advance1. cbn [m_src set_src]. pose proof (srcok_advance1 _ _ _ Hs') as Ha. cbv zeta in Ha.
        assert (i < List.length s) by (apply nth_error_Some; congruence). apply Nat.ltb_lt in H. rewrite H in Ha.
        destruct Ha as [_ Ha]. cbn -[i_advance]. apply H1; assumption.
      * cbn. apply H2; auto.
    + cbn. apply H2; auto.
  - unfold peek. cbn [m_src]. destruct (srcok_peek _ _ _ Hs) as [Hv Hs']. destruct (i_peek src) as [c src']. cbn [fst snd] in *. subst c.
    unfold nomatch in H2. assert (Ht' : TI tbl (Nat.max F i)) by (eapply TI_mono; [eassumption|lia]).
    destruct (nth_error s i) as [c|] eqn:En.
    + cbn [cmatch] in *. destruct (cs_has s0 c) eqn:Eb.
      * specialize (H1 c eq_refl Eb). unfold advance1. cbn [m_src set_src]. pose proof (srcok_advance1 _ _ _ Hs') as Ha. cbv zeta in Ha.
        assert (i < List.length s) by (apply nth_error_Some; congruence). apply Nat.ltb_lt in H. rewrite H in Ha.
        destruct Ha as [_ Ha]. cbn -[i_advance]. apply H1; assumption.
      * cbn. apply H2; auto.
    + cbn. apply H2; auto.
Qed.

(** a span stops at the first byte outside the set *)
Fixpoint span_end (n : nat) (set : cset) (i : nat) : nat :=
  match n with
  | O => i
  | S n => match nth_error s i with Some b => if cs_has set b then span_end n set (S i) else i | None => i end
  end.
Lemma span_loop_ok : forall n set ip src stk base (tbl : T) e (c : CS) rng i F, srcok src i F ->
  exists src', span_loop bufsz n set (MS ip src stk base tbl e c rng) = MS ip src' stk base tbl e c rng /\
    srcok src' (span_end n set i) (Nat.max F (span_end n set i)).
Proof.
  induction n as [|n IH]; intros set ip src stk base tbl e c rng i F Hs.
  - cbn [span_loop span_end]. unfold peek. cbn [m_src]. destruct (srcok_peek _ _ _ Hs) as [Hv Hs'].
    destruct (i_peek src) as [b src']. exists src'. cbn. split; [reflexivity|exact Hs'].
  - cbn [span_loop span_end]. unfold peek. cbn [m_src]. destruct (srcok_peek _ _ _ Hs) as [Hv Hs'].
    destruct (i_peek src) as [b src']. cbn [fst snd] in *. subst b. destruct (nth_error s i) as [b|] eqn:En.
    + destruct (cs_has set b).
      * pose proof (srcok_advance1 _ _ _ Hs') as Ha. cbv zeta in Ha.
        assert (i < List.length s) by (apply nth_error_Some; congruence). apply Nat.ltb_lt in H. rewrite H in Ha. destruct Ha as [_ Ha].
        unfold advance1, set_src. cbn [m_ip m_src m_stk m_base m_tbl m_errs m_cs m_range].
        destruct (IH set ip (snd (i_advance bufsz src' 1)) stk base tbl e c rng _ _ Ha) as (src2 & H1 & H2).
        exists src2. split; [exact H1|]. 
        assert (Hge : forall m j, j <= span_end m set j).
        { induction m as [|m IHm]; intro j; simpl; [lia|]. destruct (nth_error s j); [|lia]. destruct (cs_has set b0); [|lia]. specialize (IHm (S j)). lia. }
        specialize (Hge n (S i)). replace (Nat.max F (span_end n set (S i))) with (Nat.max (Nat.max F i) (span_end n set (S i))) by lia. exact H2.
      * exists src'. cbn. split; [reflexivity|exact Hs'].
    + exists src'. cbn. split; [reflexivity|exact Hs'].
Qed.
Lemma G_span : forall Q k set i w stk base F, at_ k (ISpan set) ->
  (let j := span_end (S (List.length s)) set i in G Q (S k) j w stk base (Nat.max F j)) ->
  G Q k i w stk base F.
Proof.
  intros Q k set i w stk base F Hp H. enter Hp. cbn [m_src]. rewrite (srcok_data _ _ _ Hs).
  destruct (span_loop_ok (S (List.length s)) set k src stk base tbl (fst w) (snd w) rng i F Hs) as (src' & H1 & H2).
  rewrite H1. cbn -[span_end]. apply H; [exact H2|]. eapply TI_mono; [eassumption|lia].
Qed.

Lemma G_emptyop : forall Q k op i w stk base F, at_ k (IEmpty op) ->
  (if (N.land (empty_op_context (byte_before s i) (nth_error s i)) (bN op) =? 0)%N then FL Q w stk base (Nat.max F i)
   else G Q (S k) i w stk base (Nat.max F i)) -> G Q k i w stk base F.
Proof.
  intros Q k op i w stk base F Hp H. enter Hp. cbn [m_src].
  replace (i_peek_before src) with (byte_before s i).
  2: { destruct Hs as (Hi & Ha & Hl). rewrite (peek_before_val bufsz Hbuf) by assumption. unfold abs in Ha. injection Ha as -> -> _. destruct i; reflexivity. }
  unfold peek. cbn [m_src]. destruct (srcok_peek _ _ _ Hs) as [Hv Hs']. destruct (i_peek src) as [c src']. cbn [fst snd] in *. subst c.
  assert (Ht' : TI tbl (Nat.max F i)) by (eapply TI_mono; [eassumption|lia]).
  destruct (N.land _ _ =? 0)%N.
  - unfold fail. cbn. eapply FL_here; eassumption.
  - cbn. apply H; assumption.
Qed.

Lemma G_capbegin : forall Q k id i w stk base F, at_ k (ICaptureBegin id) ->
  G Q (S k) i w (SE (KCapt id i) [] :: stk) base F -> G Q k i w stk base F.
Proof.
  intros Q k id i w stk base F Hp H. enter Hp. unfold push, mpos. cbn. rewrite (srcok_pos _ _ _ Hs). apply H; assumption.
Qed.
Lemma G_caplate : forall Q k b id i w stk base F, at_ k (ICaptureLate b id) ->
  G Q (S k) i w (SE (KCapt id (i - N.to_nat (bN b))) [] :: stk) base F -> G Q k i w stk base F.
Proof.
  intros Q k b id i w stk base F Hp H. enter Hp. unfold push, mpos. cbn -[N.to_nat]. rewrite (srcok_pos _ _ _ Hs). apply H; assumption.
Qed.
Definition node (id : Z) (low high : nat) (cs : list capture) : list capture :=
  if ivl_overlaps intrvl low high then [new_node id low (high - low) cs] else [].
Lemma G_add_node : forall Q k id low high cs i w stk base F,
  G Q k i w (fst (add_capt (node id low high cs) stk base)) (snd (add_capt (node id low high cs) stk base)) F ->
  forall ip src tbl rng, srcok src i F -> TI tbl F ->
  wp Q (set_ip k (add_node intrvl id low high cs (MS ip src stk base tbl (fst w) (snd w) rng))).
Proof.
  intros Q k id low high cs i w stk base F H ip src tbl rng Hs Ht. unfold add_node, node in *. destruct (ivl_overlaps intrvl low high).
  - unfold add. cbn [m_stk m_base set_range]. destruct (add_capt _ stk base) as [k' b']. cbn [fst snd] in H. cbn. apply H; assumption.
  - rewrite add_nil in H. cbn. apply H; assumption.
Qed.
Lemma G_capfull : forall Q k b id i w stk base F, at_ k (ICaptureFull b id) ->
  (let n := node id (i - N.to_nat (bN b)) i [] in G Q (S k) i w (fst (add_capt n stk base)) (snd (add_capt n stk base)) F) ->
  G Q k i w stk base F.
Proof.
  intros Q k b id i w stk base F Hp H. enter Hp. cbv zeta. unfold mpos. cbn [m_src]. rewrite (srcok_pos _ _ _ Hs).
  eapply G_add_node; eassumption.
Qed.
Lemma G_capend : forall Q k id p cs i w stk base F, at_ k ICaptureEnd ->
  (let n := node id p i cs in G Q (S k) i w (fst (add_capt n stk base)) (snd (add_capt n stk base)) F) ->
  G Q k i w (SE (KCapt id p) cs :: stk) base F.
Proof.
  intros Q k id p cs i w stk base F Hp H. enter Hp. unfold pop. cbn -[add_node].
  unfold mpos, set_stk. cbn [m_src m_ip m_tbl m_errs m_cs m_range]. rewrite (srcok_pos _ _ _ Hs). apply G_add_node with (i := i) (F := F); assumption.
Qed.

Lemma G_error : forall Q k m i w stk base F, at_ k (IError m) ->
  G Q (S k) i (fst w ++ [(i, m)], snd w) stk base F -> G Q k i w stk base F.
Proof.
  intros Q k m i w stk base F Hp H. enter Hp. unfold mpos. cbn [m_src m_errs]. rewrite (srcok_pos _ _ _ Hs). cbn. apply H; assumption.
Qed.
Lemma G_end : forall Q k i w stk base F, at_ k (IEnd true) -> AB Q i w F -> G Q k i w stk base F.
Proof. intros Q k i w stk base F Hp H. enter Hp. cbn. apply H; assumption. Qed.

Lemma G_checkbegin : forall Q k id fl i w stk base F, at_ k (ICheckBegin id fl) ->
  G Q (S k) i w (SE (KCheck id fl i) [] :: stk) base F -> G Q k i w stk base F.
Proof.
  intros Q k id fl i w stk base F Hp H. enter Hp. unfold push, mpos. cbn. rewrite (srcok_pos _ _ _ Hs). apply H; assumption.
Qed.
Lemma G_checkend : forall Q k ck id fl p cs i w stk base F, at_ k (ICheckEnd ck) ->
  match check ck (snd w) (firstn (i - p) (skipn p s)) s i id fl with
  | (c', Some n) => i + n <= List.length s /\
       G Q (S k) (i + n) (fst w, c') (fst (add_capt cs stk base)) (snd (add_capt cs stk base)) F
  | (c', None) => FL Q (fst w, c') (fst (add_capt cs stk base)) (snd (add_capt cs stk base)) F
  end -> G Q k i w (SE (KCheck id fl p) cs :: stk) base F.
Proof.
  intros Q k ck id fl p cs i w stk base F Hp H. enter Hp. unfold pop, add. cbn -[add_capt i_slice].
  destruct (add_capt cs stk base) as [k' b'] eqn:Ea. unfold mpos, set_stk. cbn [m_src m_stk m_cs s_kind s_capt m_ip m_base m_tbl m_errs m_range fst snd].
  unfold i_slice, read_at. rewrite (srcok_pos _ _ _ Hs), (srcok_data _ _ _ Hs).
  destruct (check _ _ _ _ _ _ _) as [c' [n|]].
  - destruct H as [Hn H]. unfold advance. cbn -[i_advance]. apply H; [|exact Ht]. apply srcok_advance; assumption.
  - unfold fail. cbn. eapply (FL_here Q (fst w, c')); [exact H| |]; eassumption.
Qed.

Definition stored (cs : list capture) : list capture := match intrvl with Some _ => [] | None => cs end.

Lemma G_memoopen : forall Q k L id i w stk base F, at_ k (IMemoOpen L id) ->
  (forall tbl, TI tbl F -> TI (snd (t_get ops tbl id i)) F /\ match fst (t_get ops tbl id i) with
     | Some (MEntry None _ _) => FL Q w stk base F
     | Some (MEntry (Some len) _ cs) => i + len <= List.length s /\
          G Q (lbl_index P L) (i + len) w (fst (add_capt cs stk base)) (snd (add_capt cs stk base)) F
     | None => G Q (S k) i w (SE (KMemo id i) [] :: stk) base F
     end) -> G Q k i w stk base F.
Proof.
  intros Q k L id i w stk base F Hp H. enter Hp. specialize (H tbl Ht). clear Ht. unfold mpos. cbn [m_src m_tbl]. rewrite (srcok_pos _ _ _ Hs).
  destruct (t_get ops tbl id i) as [[[[len|] cnt cs]|] tbl']; cbn [fst snd] in H; destruct H as [Ht H].
  - destruct H as [Hn H]. unfold add. cbn -[add_capt i_advance]. destruct (add_capt cs stk base) as [k' b'] eqn:Ea. unfold advance. cbn -[i_advance].
    apply H; [|exact Ht]. apply srcok_advance; assumption.
  - unfold fail. cbn. eapply FL_here; eassumption.
  - unfold push, mpos. cbn. rewrite (srcok_pos _ _ _ Hs). apply H; assumption.
Qed.
Lemma G_memoclose : forall Q k id p cs i w stk base F, at_ k IMemoClose ->
  (forall tbl, TI tbl F -> TI (t_put ops tbl id p (Some (i - p)) (Nat.max F i - p + 1) 1 (stored cs)) F) ->
  G Q (S k) i w (fst (add_capt cs stk base)) (snd (add_capt cs stk base)) F ->
  G Q k i w (SE (KMemo id p) cs :: stk) base F.
Proof.
  intros Q k id p cs i w stk base F Hp Hput H. enter Hp. unfold pop, add. cbn -[add_capt].
  destruct (add_capt cs stk base) as [k' b'] eqn:Ea. unfold memoize, mpos. cbn -[Nat.sub]. rewrite (srcok_pos _ _ _ Hs), (srcok_F _ _ _ Hs).
  apply H; [exact Hs|]. apply Hput. exact Ht.
Qed.

Lemma FL_skip : forall Q w e stk base F, (match s_kind e with KRet _ | KCapt _ _ | KCheck _ _ _ => True | _ => False end) ->
  FL Q w stk base F -> FL Q w (e :: stk) base F.
Proof.
  intros Q w [k c] stk base F He H src tbl rng i cs ip stk0 Hs Ht. cbn [add_capt fst snd s_kind] in *.
  destruct k; try destruct He; cbn [do_fail s_kind]; eapply FL_here0; eassumption.
Qed.
Lemma FL_btrack : forall Q w ip off cs stk base F, off <= List.length s -> G Q ip off w stk base F ->
  FL Q w (SE (KBtrack ip off) cs :: stk) base F.
Proof.
  intros Q w ip off cs stk base F Ho H src tbl rng i cs' ip0 stk0 Hs Ht. cbn -[i_seek]. apply H; [|exact Ht].
  eapply srcok_seek0; eassumption.
Qed.
Lemma FL_memo : forall Q w id p cs stk base F,
  (forall tbl pos, TI tbl F -> TI (t_put ops tbl id p None (Nat.max F pos - p + 1) 0 (stored [])) F) ->
  FL Q w stk base F -> FL Q w (SE (KMemo id p) cs :: stk) base F.
Proof.
  intros Q w id p cs stk base F Hput H src tbl rng i cs' ip stk0 Hs Ht. cbn -[Nat.sub].
  unfold memoize, mpos. cbn -[Nat.sub]. assert (Hf : i_furthest src = F) by (destruct Hs as [_ Hs]; unfold abs in Hs; congruence).
  rewrite Hf. eapply FL_here0; [exact H|exact Hs|]. apply Hput. exact Ht.
Qed.
End Machine.
