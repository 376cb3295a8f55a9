(** The extent of the capture that ExecInterval returns (C37). *)
From Coq Require Import ZArith.
From Verif Require Import Base Model_Charset Model_Isa Model_Capture Model_Input Model_Code Model_VM Model_Pattern Spec_Peg Spec_Run Spec_Props Proof_Capture Proof_Props3.
Local Open Scope nat_scope.

Lemma within_eq : forall a b id st ln k, within a b (CNode id st ln k) <-> a <= st /\ st + ln <= b /\ Forall (within a b) k.
Proof.
  intros a b id st ln k. cbn [within]. assert (K : forall l, (fix go (ts : list ctree) : Prop := match ts with [] => True | t :: ts => within a b t /\ go ts end) l <-> Forall (within a b) l).
  { induction l as [|t l IH]; [split; constructor|]. rewrite Forall_cons_iff, IH. tauto. }
  rewrite K. tauto.
Qed.
Lemma within_mono : forall a b a' b', a' <= a -> b <= b' -> forall t, within a b t -> within a' b' t.
Proof.
  intros a b a' b' Ha Hb. induction t as [id st ln k IH] using ctree_ind'. rewrite !within_eq. intros (A & B & C). split; [lia|]. split; [lia|].
  rewrite Forall_forall in *. auto.
Qed.

Section Range.
Variables (bufsz : nat) (CS : Type) (check : nat -> CS -> list byte -> list byte -> nat -> Z -> Z -> CS * option nat) (lo hi : nat).
Notation mst := (@mstate unit CS).
Notation IV := (Some (lo, hi)).
Definition ins (r : nat * nat) (cs : list capture) : Prop := Forall (within (fst r) (snd r)) (flat cs).
Lemma ins_app : forall r x y, ins r x -> ins r y -> ins r (x ++ y).
Proof. intros r x y A B. unfold ins. rewrite flat_app'. apply Forall_app. split; assumption. Qed.
Lemma ins_nil : forall r, ins r [].
Proof. intro r. constructor. Qed.
Definition wider (r r' : nat * nat) : Prop := fst r' <= fst r /\ snd r <= snd r'.
Lemma ins_wider : forall r r' cs, wider r r' -> ins r cs -> ins r' cs.
Proof. intros r r' cs [A B] H. eapply Forall_impl; [|exact H]. intros t. apply within_mono; assumption. Qed.
Definition stk_in (r : nat * nat) (stk : list sentry) : Prop := Forall (fun e => ins r (s_capt e)) stk.
Record Inv (st : mst) : Prop := MkInv {
  iv_wide : wider (lo, hi) (m_range st); iv_base : ins (m_range st) (m_base st); iv_stk : stk_in (m_range st) (m_stk st) }.

Lemma add_inv : forall cs st, Inv st -> ins (m_range st) cs -> Inv (add cs st).
Proof.
  intros cs [ip src stk base tbl er c rng] [A B C] H. unfold add. cbn [m_stk m_base m_range] in *. destruct stk as [|e stk]; cbn [add_capt]; constructor; cbn; try assumption.
  - apply ins_app; assumption.
  - inversion C; subst. constructor; [cbn; apply ins_app; assumption|assumption].
Qed.
Lemma pop_inv : forall b st, Inv st -> Inv (snd (pop b st)) /\ match fst (pop b st) with Some e => ins (m_range (snd (pop b st))) (s_capt e) | None => True end.
Proof.
  intros b [ip src stk base tbl er c rng] H. unfold pop. cbn [m_stk m_base]. destruct stk as [|e stk]; cbn [fst snd]; [split; [exact H|exact Logic.I]|].
  destruct H as [A B C]. cbn in A, B, C. inversion C; subst.
  assert (K : Inv (set_stk stk base (MS ip src (e :: stk) base tbl er c rng))) by (constructor; cbn; assumption).
  destruct b; (split; [try (apply add_inv; [exact K|cbn; assumption]); exact K|]).
  - unfold add. cbn. destruct (add_capt (s_capt e) stk base); cbn. assumption.
  - cbn. assumption.
Qed.
Lemma push_inv : forall k st, Inv st -> Inv (push k st).
Proof. intros k [ip src stk base tbl er c rng] [A B C]. constructor; cbn in *; try assumption. constructor; [apply ins_nil|assumption]. Qed.
Lemma src_inv : forall s st, Inv st -> Inv (set_src s st).
Proof. intros s st [A B C]. constructor; assumption. Qed.
Lemma ip_inv : forall s st, Inv st -> Inv (set_ip s st).
Proof. intros s st [A B C]. constructor; assumption. Qed.
Lemma tbl_inv : forall s st, Inv st -> Inv (set_tbl s st).
Proof. intros s st [A B C]. constructor; assumption. Qed.
Lemma errs_inv : forall s st, Inv st -> Inv (set_errs s st).
Proof. intros s st [A B C]. constructor; assumption. Qed.
Lemma cs_inv : forall s st, Inv st -> Inv (set_cs s st).
Proof. intros s st [A B C]. constructor; assumption. Qed.
Lemma memoize_inv : forall id pos ml ct cs st, Inv st -> Inv (memoize none_table IV id pos ml ct cs st).
Proof. intros. apply tbl_inv. assumption. Qed.
Lemma adv_inv : forall n st, Inv st -> Inv (advance bufsz n st).
Proof. intros. apply src_inv. assumption. Qed.
Lemma adv1_inv : forall st, Inv st -> Inv (advance1 bufsz st).
Proof. intros. apply src_inv. assumption. Qed.
Lemma peek_inv : forall st, Inv st -> Inv (snd (peek st)).
Proof. intros st H. unfold peek. destruct (i_peek (m_src st)). apply src_inv. exact H. Qed.

Definition good_step (x : @step_res unit CS) : Prop :=
  match x with
  | Next st => Inv st
  | Done o st => Inv st /\ forall c, o_capt o = Some c -> c = new_dummy (fst (m_range st)) (snd (m_range st) - fst (m_range st)) (m_base st)
  | Crash => True
  end.
Lemma fail_inv : forall stk st, Inv st -> stk_in (m_range st) stk -> good_step (do_fail bufsz none_table IV stk st).
Proof.
  induction stk as [|e stk IH]; intros st H K; cbn [do_fail].
  - cbn. split; [|discriminate]. destruct H as [A B C]. constructor; cbn; try assumption.
  - inversion K; subst. assert (L : Inv (set_stk stk (m_base st) st)) by (destruct H as [A B C]; constructor; cbn; assumption).
    destruct (s_kind e); try (apply IH; assumption).
    + apply ip_inv, src_inv. exact L.
    + apply IH; [apply memoize_inv; assumption|assumption].
    + exact L.
Qed.
Lemma fail_good : forall st, Inv st -> good_step (fail bufsz none_table IV st).
Proof. intros st H. apply fail_inv; [exact H|apply (iv_stk _ H)]. Qed.
Lemma span_inv : forall n s st, Inv st -> Inv (span_loop bufsz n s st).
Proof.
  induction n as [|n IH]; intros s st H; cbn [span_loop]; pose proof (peek_inv _ H) as P; destruct (peek st) as [[b|] st']; cbn [snd] in P; try exact P.
  destruct (cs_has s b); [apply IH, adv1_inv; exact P|exact P].
Qed.
Lemma close_inv : forall n id st, Inv st -> Inv (tree_close n id st).
Proof.
  induction n as [|n IH]; intros id st H; cbn [tree_close]; [exact H|]. destruct (m_stk st) as [|[[] cs] stk]; try exact H.
  destruct (Z.eqb _ _); [|exact H]. apply IH. apply (pop_inv true). exact H.
Qed.
Lemma pops_inv : forall n st, Inv st -> Inv (tree_pops n st).
Proof. induction n as [|n IH]; intros st H; cbn [tree_pops]; [exact H|]. apply IH, (pop_inv true). exact H. Qed.
Lemma loop_inv : forall n seen accum st, Inv st -> Inv (tree_loop none_table IV n seen accum st).
Proof.
  induction n as [|n IH]; intros seen accum st H; cbn [tree_loop]; [exact H|].
  destruct (nth_error (m_stk st) seen) as [[[] ?]|]; try exact H. destruct (nth_error (m_stk st) (S seen)) as [[[] ?]|]; try exact H.
  destruct (_ <? _); [apply IH; exact H|]. destruct (pop_inv false (tree_pops (S seen - 1) st) (pops_inv _ _ H)) as [P Q].
  destruct (pop false (tree_pops (S seen - 1) st)) as [ent st']. cbn [fst snd] in P, Q.
  set (st2 := match ent with Some (SE (KTree _ epos _) ((_ :: _) as cs)) => add cs st' | _ => st' end).
  match goal with |- Inv (match m_stk ?x with _ => _ end) => assert (K : Inv x) end.
  { destruct ent as [[[] [|? ?]]|]; try exact P. apply add_inv; [exact P|exact Q]. }
  match goal with |- Inv (match m_stk ?x with _ => _ end) => set (st3 := x) in * end.
  destruct (m_stk st3) as [|[[] nc] rest] eqn:Es; try exact K. apply IH, memoize_inv. destruct K as [A B C]. rewrite Es in C. inversion C; subst.
  constructor; cbn; try assumption. constructor; assumption.
Qed.
Lemma node_inv : forall id low high cs st, Inv st -> ins (m_range st) cs -> Inv (add_node IV id low high cs st).
Proof.
  intros id low high cs st H Hc. unfold add_node, ivl_overlaps. destruct (Nat.ltb_spec lo high) as [L1|]; [|exact H]. destruct (Nat.ltb_spec low hi) as [L2|]; [|exact H]. cbn [andb].
  destruct st as [ip src stk base tbl er c [a b]]. cbn [m_range fst snd set_range] in *. destruct H as [[W1 W2] B C]. cbn in W1, W2, B, C.
  assert (W : wider (a, b) (Nat.min a low, Nat.max b high)) by (split; cbn; lia).
  apply add_inv.
  - constructor; cbn; [split; cbn; lia|eapply ins_wider; eassumption|]. unfold stk_in. eapply Forall_impl; [|exact C]. intros e. apply ins_wider. exact W.
  - unfold ins. cbn. constructor; [|constructor]. fold (flat cs). rewrite within_eq. split; [lia|]. split; [lia|]. apply (ins_wider _ _ _ W Hc).
Qed.
Ltac pk H := let P := fresh "P" in pose proof (peek_inv _ H) as P; let b := fresh "b" in let s' := fresh "s'" in destruct (peek _) as [b s']; cbn [snd] in P.
Ltac pp b H := let P := fresh "P" in let Q := fresh "Q" in destruct (pop_inv b _ H) as [P Q]; let e := fresh "e" in let s' := fresh "s'" in destruct (pop b _) as [e s']; cbn [fst snd] in P, Q.
Ltac fin := match goal with
  | |- good_step (Next _) => cbn [good_step]; fin
  | |- good_step Crash => exact Logic.I
  | |- good_step (fail _ _ _ _) => apply fail_good; fin
  | |- good_step (if ?b then _ else _) => destruct b; fin
  | |- good_step (match ?b with Some _ => _ | None => _ end) => destruct b; fin
  | |- Inv (set_ip _ _) => apply ip_inv; fin
  | |- Inv (set_src _ _) => apply src_inv; fin
  | |- Inv (set_cs _ _) => apply cs_inv; fin
  | |- Inv (set_errs _ _) => apply errs_inv; fin
  | |- Inv (push _ _) => apply push_inv; fin
  | |- Inv (advance1 _ _) => apply adv1_inv; fin
  | |- Inv (advance _ _ _) => apply adv_inv; fin
  | |- Inv (memoize _ _ _ _ _ _ _ _) => apply memoize_inv; fin
  | |- Inv (span_loop _ _ _ _) => apply span_inv; fin
  | |- Inv (tree_close _ _ _) => apply close_inv; fin
  | |- Inv (tree_loop _ _ _ _ _ _) => apply loop_inv; fin
  | |- Inv (snd (pop _ _)) => apply pop_inv; fin
  | |- _ => assumption
  end.
Lemma exec_good : forall i next st, Inv st -> good_step (exec_d bufsz none_table check IV i next st).
Proof.
  intros i next st H; destruct i; cbn [exec_d]; try (fin; fail);
    try (match goal with K : Inv ?x |- context [peek ?x] => pk K; fin end; fail);
    try (match goal with |- context [i_advance ?a ?b ?c] => destruct (i_advance a b c); fin end; fail);
    try (match goal with |- context [pop true st] => destruct (pop_inv true st H) as [P Q]; destruct (pop true st) as [[[k pc]|] st']; cbn [fst snd s_capt] in P, Q; [destruct k; try exact Logic.I|exact Logic.I] end);
    try (match goal with |- context [pop false st] => destruct (pop_inv false st H) as [P Q]; destruct (pop false st) as [[[k pc]|] st']; cbn [fst snd s_capt] in P, Q; [destruct k; try exact Logic.I|exact Logic.I] end);
    try (fin; fail);
    try (match goal with |- context [check ?a ?b ?c ?d ?e ?f ?g] => destruct (check a b c d e f g) as [? [?|]]; fin end; fail);
    try (cbn [good_step]; apply ip_inv, node_inv; [assumption|first [assumption|apply ins_nil]]; fail).
  - destruct H as [A B C]. destruct (m_stk st) as [|[[] cs] rest] eqn:Es; try exact Logic.I. inversion C; subst.
    assert (K : Inv (set_stk rest (m_base st) st)) by (constructor; cbn; assumption).
    pose proof (add_inv cs _ K) as L. unfold add in L. cbn [m_stk m_base set_stk m_range] in L. destruct (add_capt cs rest (m_base st)) as [r' b'].
    specialize (L H1). destruct L as [A' B' C']. cbn in A', B', C'. cbn. constructor; cbn; try assumption. constructor; [apply ins_nil|assumption].
  - split; [exact H|]. intros c E. cbn in E. injection E as <-. reflexivity.
  - cbn. apply ip_inv, push_inv, tbl_inv. exact H.
  - cbn. apply ip_inv, push_inv, tbl_inv. exact H.
  - destruct H as [A B C]. destruct (m_stk st) as [|[[] cs] rest] eqn:Es; try exact Logic.I. cbn [good_step]. apply ip_inv, memoize_inv.
    constructor; cbn; try assumption. inversion C; subst. constructor; assumption.
Qed.
Lemma run_good : forall (step : mst -> @step_res unit CS), (forall st, Inv st -> good_step (step st)) ->
  forall f st o st', Inv st -> run step f st = Some (ROk o st') -> good_step (Done o st').
Proof.
  intros step Hs. induction f as [|f IH]; intros st o st' H E; cbn [run] in E; [discriminate|]. pose proof (Hs st H) as G.
  destruct (step st) as [s2|o2 s2|]; [eapply IH; [exact G|exact E]|injection E as -> ->; exact G|discriminate].
Qed.
Lemma interval_range : lo <= hi -> forall f code s cs0 o st c,
  vm_exec bufsz none_table check IV f code s tt cs0 = Some (ROk o st) -> o_capt o = Some c ->
  cap_start c <= lo /\ hi <= cap_end c /\ Forall (within (cap_start c) (cap_end c)) (flat1 c).
Proof.
  intros Hl f code s cs0 o st c H Hc.
  assert (G : good_step (Done o st)).
  { eapply run_good; [|constructor|exact H].
    - intros st' I. unfold vm_step. destruct (decode _ _); [apply exec_good; exact I|exact Logic.I].
    - cbn. split; cbn; lia.
    - cbn. apply ins_nil.
    - cbn. constructor. }
  destruct G as [[[W1 W2] B _] G]. rewrite (G c Hc). cbn [fst snd] in W1, W2. unfold cap_end, new_dummy. cbn [cap_start cap_len].
  replace (fst (m_range st) + (snd (m_range st) - fst (m_range st))) with (snd (m_range st)) by lia. auto.
Qed.
End Range.
(** the capture that Exec returns stands for the match *)
Section Root.
Variables (bufsz : nat) (T : Type) (ops : table_ops T) (CS : Type) (check : nat -> CS -> list byte -> list byte -> nat -> Z -> Z -> CS * option nat).
Definition rooted (x : @step_res T CS) : Prop := match x with Done o _ => forall c, o_capt o = Some c -> cap_start c = 0 /\ cap_len c = o_pos o | _ => True end.
Lemma fail_rooted : forall st, rooted (fail bufsz ops (CS:=CS) None st).
Proof.
  intro st. unfold fail. generalize (m_stk st). intro stk. revert st. induction stk as [|e stk IH]; intro st; cbn [do_fail].
  - intros c E. discriminate E.
  - destruct (s_kind e); try apply IH; exact Logic.I.
Qed.
Lemma exec_rooted : forall i nx st, rooted (exec_d bufsz ops check None i nx st).
Proof.
  intros i nx st. destruct i; cbn [exec_d]; try exact Logic.I; try apply fail_rooted;
    repeat (match goal with |- rooted (match ?x with _ => _ end) => destruct x end; try exact Logic.I; try apply fail_rooted).
  intros c E. cbn in E. injection E as <-. split; reflexivity.
Qed.
Lemma exec_root : forall f code s t (cs0 : CS) o st c, vm_exec bufsz ops check None f code s t cs0 = Some (ROk o st) -> o_capt o = Some c ->
  cap_start c = 0 /\ cap_len c = o_pos o.
Proof.
  intros f code s t cs0 o st c. unfold vm_exec. generalize (init_state bufsz ops None s t cs0).
  induction f as [|f IH]; intros s0 E Hc; cbn [run] in E; [discriminate|].
  assert (K : rooted (vm_step bufsz ops check None code s0)) by (unfold vm_step; destruct (decode _ _); [apply exec_rooted|exact Logic.I]).
  destruct (vm_step bufsz ops check None code s0) as [s2|o2 s2|]; [eapply IH; eassumption|injection E as -> ->; auto|discriminate].
Qed.
End Root.
