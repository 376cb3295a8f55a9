(** From a pattern to the result of running its bytecode. *)
From Verif Require Import Base Model_Charset Model_Isa Model_Capture Model_Input Spec_Input Proof_Input Model_Code Model_VM Model_Pattern Spec_Peg Spec_Scope Spec_Run Proof_Eval Proof_Get Proof_Inline Proof_Codegen Proof_Machine Proof_Frag Proof_Diverge Proof_Compile Proof_Emit Proof_Sim Proof_Optimize Proof_Encode.
Local Open Scope nat_scope.
Arguments Nat.max : simpl never.

Lemma pr_some : forall lo hi t, prune1 (Some (lo, hi)) t = clip1 lo hi t.
Proof.
  intros lo hi. fix IH 1. intros [id st ln kids]. rewrite prune1_eq. cbn [clip1 ivl_overlaps].
  replace (flat_map (clip1 lo hi) kids) with (pr (Some (lo, hi)) kids); [reflexivity|].
  revert kids. fix IHk 1. intros [|k kids]; [reflexivity|]. cbn [pr flat_map]. rewrite (IH k), (IHk kids). reflexivity.
Qed.
Lemma pr_none : forall t, prune1 None t = [t].
Proof.
  fix IH 1. intros [id st ln kids]. rewrite prune1_eq. cbn [ivl_overlaps].
  replace (pr None kids) with kids; [reflexivity|].
  revert kids. fix IHk 1. intros [|k kids]; [reflexivity|]. cbn [pr]. rewrite (IH k), <- (IHk kids). reflexivity.
Qed.
Lemma pr_clip : forall intrvl ts, pr intrvl ts = clip intrvl ts.
Proof.
  intros [[lo hi]|] ts; (induction ts as [|t ts IH]; [reflexivity|]); cbn [pr]; rewrite IH; [rewrite pr_some|rewrite pr_none]; reflexivity.
Qed.

Section Top.
Variable bufsz : nat.
Hypothesis Hbuf : 0 < bufsz.
Variable T : Type.
Variable ops : table_ops T.
Variable CS : Type.
Variable check : nat -> CS -> list byte -> list byte -> nat -> Z -> Z -> CS * option nat.
Variable intrvl : option (nat * nat).
Variable s : list byte.
Variable TI : T -> nat -> Prop.
Notation mstate := (mstate T CS).

Definition final (r : pres) (w : world CS) (o : outcome) (st : mstate) : Prop :=
  agrees intrvl r o /\ o_errs o = fst w /\ m_cs st = snd w /\ TI (m_tbl st) (i_furthest (m_src st)).

Lemma finish_eq : forall ok (st : mstate), o_ok (finish intrvl ok st) = ok /\ o_pos (finish intrvl ok st) = mpos st /\ o_errs (finish intrvl ok st) = m_errs st /\
  exists c, o_capt (finish intrvl ok st) = Some c /\ flat1 c = flat (m_base st).
Proof.
  intros ok st. unfold finish. destruct intrvl as [[l h]|]; cbn [o_ok o_pos o_errs o_capt]; (split; [reflexivity|]; split; [reflexivity|]; split; [reflexivity|]);
    eexists; (split; [reflexivity|]); unfold new_dummy; rewrite flat1_eq; reflexivity.
Qed.
Lemma top_conts : forall P XB X r w x, 
  conts bufsz T ops CS check intrvl s P XB TI X (final r w) r w x (List.length P) [] [] 0.
Proof.
  intros P XB X r w x. destruct r as [|j ts|j]; cbn [conts].
  - intros F' _ _ src tbl rng i cs ip stk0 Hs Ht. cbn [add_capt fst snd do_fail wpr]. split; [split; reflexivity|]. cbn [o_errs m_cs m_tbl m_src set_stk].
    split; [reflexivity|]. split; [reflexivity|]. replace (i_furthest src) with F' by (destruct Hs as [_ Hs]; unfold abs in Hs; congruence). exact Ht.
  - intros cs F' Hf _ _ src tbl rng Hs Ht. apply wp_step. unfold sym_step. cbn [m_ip].
    assert (N : nth_error P (List.length P) = None) by (apply nth_error_None; lia). rewrite N, Nat.eqb_refl. cbn [exec_d negb wpr add_capt fst snd app].
    match goal with |- final _ _ (finish _ _ ?x) _ => set (st := x) end.
    destruct (finish_eq true st) as (E1 & E2 & E3 & c & E4 & E5). split; [|split; [exact E3|split; [reflexivity|]]].
    + split; [exact E1|]. split; [rewrite E2; apply (srcok_pos _ _ _ _ _ Hs)|]. exists c. split; [exact E4|]. rewrite E5, <- pr_clip. exact Hf.
    + cbn. rewrite (srcok_F _ _ _ _ _ Hs). exact Ht.
  - intros F' _ _ src tbl rng ip stk base Hs Ht. cbv zeta. match goal with |- final _ _ (finish _ _ ?x) _ => set (st := x) end.
    destruct (finish_eq false st) as (E1 & E2 & E3 & c & E4 & E5). split; [|split; [exact E3|split; [reflexivity|]]].
    + split; [exact E1|]. rewrite E2. apply (srcok_pos _ _ _ _ _ Hs).
    + cbn. rewrite (srcok_F _ _ _ _ _ Hs). exact Ht.
Qed.
End Top.

(* ---------- open calls ---------- *)
Lemma opt_open : forall lbl p i x, In (IOpenCall x) p -> In (IOpenCall x) (opt_step lbl p i).
Proof.
  intros lbl p i x H. apply In_nth_error in H. destruct H as (k & Hk). unfold opt_step.
  assert (U : forall j y q, nth_error q k = Some (IOpenCall x) -> k <> j -> nth_error (upd j y q) k = Some (IOpenCall x)) by (intros; rewrite upd_other by assumption; assumption).
  apply (nth_error_In _ k).
  destruct (nth_error p i) as [[]|] eqn:Ei; try exact Hk.
  - destruct (next_insn (skipn (lbl l) p)) as [[]|]; try exact Hk; apply U; [exact Hk|congruence|exact Hk|congruence|exact Hk|congruence|exact Hk|congruence|exact Hk|congruence|exact Hk|congruence|exact Hk|congruence|exact Hk|congruence].
  - destruct (nth_error p (S i)) as [[]|] eqn:Es; try exact Hk; apply U; try congruence; apply U; congruence.
Qed.
Lemma optimize_open : forall p x, In (IOpenCall x) p -> In (IOpenCall x) (optimize p).
Proof.
  intros p x. unfold optimize. generalize (lbl_index p) as lbl. generalize (seq 0 (List.length p)) as l. intros l lbl. revert p.
  induction l as [|i l IH]; intros p H; [exact H|]. cbn [fold_left]. apply IH. apply opt_open. exact H.
Qed.
Lemma loop_open : forall lbl p c c' x, encode_loop lbl p c = Some c' -> ~ In (IOpenCall x) p.
Proof.
  intros lbl. induction p as [|i p IH]; intros c c' x H Hin; [destruct Hin|]. cbn [encode_loop] in H. destruct Hin as [->|Hin].
  - cbn in H. discriminate.
  - destruct (is_label_or_nop i); [eapply IH; eassumption|]. destruct (encode_args lbl c i) as [[args c1]|]; [|discriminate]. eapply IH; eassumption.
Qed.
Lemma encode_open : forall p c x, encode p = Some c -> ~ In (IOpenCall x) p.
Proof. intros p c x H. unfold encode in H. destruct (encode_loop _ p _) eqn:E; [|discriminate]. eapply loop_open. exact E. Qed.

(* ---------- any machine state that starts the program ---------- *)
Section Run.
Variable bufsz : nat.
Hypothesis Hbuf : 0 < bufsz.
Variable T : Type.
Variable ops : table_ops T.
Variable CS : Type.
Variable check : nat -> CS -> list byte -> list byte -> nat -> Z -> Z -> CS * option nat.
Variable intrvl : option (nat * nat).
Variable s : list byte.
Variable W : Prop.
Hypothesis HW : W -> List.length s <= bufsz.
Variable thr : nat.
Variable MOK : Z -> env -> pattern -> Prop.
Variable TOK : Z -> env -> pattern -> Prop.
Hypothesis Hcheck : check_ok check s.
Variable XB : nat -> nat -> Prop.
Hypothesis XB_mono : forall x F F', XB x F -> F <= F' -> XB x F'.
Hypothesis XB_down : forall x y F, XB x F -> y <= x -> XB y F.
Hypothesis XB_max : forall x y F, XB x F -> XB y F -> XB (Nat.max x y) F.
Hypothesis XB_le : forall x F, x <= S F -> XB x F.
Variable TI : T -> nat -> Prop.
Notation eval := (eval s check).
Notation reps1 := (reps1 CS check s).
Notation pr := (pr intrvl).
Notation stored := (stored intrvl).
Hypothesis TI_mono : forall t F F', TI t F -> F <= F' -> TI t F'.
Hypothesis H_sync : forall tbl F id i, TI tbl F -> i <= List.length s -> TI (snd (t_get ops tbl id i)) F.
Hypothesis H_get : forall tbl F id E q i w e, TI tbl F -> MOK id E q -> i <= List.length s -> fst (t_get ops tbl id i) = Some e ->
  exists n r x, eval n E q i w = (Some r, w, x) /\ XB x F /\
    match me_len e with
    | None => r = RFail
    | Some len => exists ts, r = RSucc (i + len) ts /\ flat (me_capt e) = pr ts
    end.
Hypothesis H_put_ok : forall tbl F id E q i n w j ts w' x cs, TI tbl F -> MOK id E q -> i <= List.length s ->
  eval n E q i w = (Some (RSucc j ts), w', x) -> XB x F -> flat cs = pr ts ->
  TI (t_put ops tbl id i (Some (j - i)) (Nat.max F j - i + 1) 1 (stored cs)) F.
Hypothesis H_put_fail : forall tbl F id E q i n w w' x pos, TI tbl F -> MOK id E q -> i <= List.length s ->
  eval n E q i w = (Some RFail, w', x) -> XB x F ->
  TI (t_put ops tbl id i None (Nat.max F pos - i + 1) 0 (stored [])) F.
Hypothesis H_tget : forall tbl F id E q i w e, TI tbl F -> TOK id E q -> i <= List.length s -> fst (t_get ops tbl id i) = Some e ->
  exists len ts x, me_len e = Some len /\ reps1 E q i w (i + len) w ts x /\ XB x F /\ flat (me_capt e) = pr ts.
Hypothesis H_tput : forall tbl F id E q i w j ts w' x cs cnt, TI tbl F -> TOK id E q -> i <= List.length s ->
  reps1 E q i w j w' ts x -> XB x F -> flat cs = pr ts ->
  TI (t_put ops tbl id i (Some (j - i)) (Nat.max F j - i + 1) cnt (stored cs)) F.
Notation final := (final T CS intrvl TI).

Lemma wide_any : forall c l, shape W c l -> forall n, In (IAny n) (un c) -> n = x01 \/ List.length s <= bufsz.
Proof.
  intros c l HS n H. apply un_out in H; [|discriminate|discriminate]. pose proof (sh_any _ _ HS _ H) as D. cbn [okn] in D. destruct D as [E|[E _]]; [left; exact E|right; apply HW; exact E].
Qed.
(** the program before optimization *)
Lemma run_sym : forall n p c l lo hi w r w' x src tbl rng,
  CG thr MOK TOK [] p (un c) -> lab lo hi c -> shape W c l -> (forall x, ~ In (IOpenCall x) c) ->
  eval n [] p 0 w = (Some r, w', x) -> srcok bufsz s src 0 0 -> TI tbl 0 ->
  exists f o st', run (sym_step bufsz ops check intrvl (un c)) f (MS 0 src [] [] tbl (fst w) (snd w) rng) = Some (ROk o st') /\ final r w' o st'.
Proof.
  intros n p c l lo hi w r w' x src tbl rng HC HL HS HO He Hs Ht.
  apply (wp_run bufsz T ops CS check intrvl (un c) (fun _ => False)); [intros ? []|].
  assert (HN : NoDup (labels (un c))) by (apply lc_nodup; intro y; rewrite lc_un; apply HL).
  pose proof (wide_any c l HS) as HA.
  pose proof (frag bufsz Hbuf T ops CS check intrvl s (un c) thr MOK TOK HN HA Hcheck XB XB_mono XB_down XB_max XB_le TI TI_mono H_sync H_get H_put_ok H_put_fail H_tget H_tput (fun _ => False) ltac:(intros ? []) n [] p (un c) HC) as FR.
  eapply frag_0 in FR. refine (FR (fun _ => None) 0 0 w r w' x [] [] (final r w') 0 _ _ (Nat.le_0_l _) He I _ src tbl rng Hs Ht).
  - intros t ins Hti. destruct ins; try exact Hti. exfalso. apply (HO name). apply nth_error_In in Hti. unfold un in Hti. apply in_map_iff in Hti. destruct Hti as (y & Ey & Hy). destruct y; try discriminate; injection Ey as <-; exact Hy.
  - intros y ll Hy. discriminate.
  - apply top_conts. exact Hbuf.
  - exact Hbuf.
Qed.

(** the bytecode *)
Lemma code_of_sym : forall c l lo hi code (w : world CS) r w' t f o st1,
  lab lo hi c -> shape W c l -> notest (optimize c) -> encode (optimize c) = Some code -> fst w = [] ->
  run (sym_step bufsz ops check intrvl (un c)) f (MS 0 (i_new bufsz s) [] [] (match intrvl with Some (a, b) => t_edit ops t a b (b - a) | None => t end) (fst w) (snd w)
    (match intrvl with Some rr => rr | None => (0, 0) end)) = Some (ROk o st1) -> final r w' o st1 ->
  exists f o st', vm_exec bufsz ops check intrvl f code s t (snd w) = Some (ROk o st') /\ final r w' o st'.
Proof.
  intros c l lo hi code w r w' t f o st1 HL HS HN HE Hw R1 Q1.
  assert (EQ : equi bufsz T CS W (sym_step bufsz ops check intrvl (un c)) (vm_step bufsz ops check intrvl code)).
  { eapply (equi_trans _ _ _ check); [apply un_equi; [exact Hbuf|apply (sh_nop _ _ HS)|apply (sh_any _ _ HS)]|].
    eapply (equi_trans _ _ _ check); [apply optimize_equi; [exact Hbuf|apply (sh_any _ _ HS)|exact HN]|]. apply encode_equi; assumption. }
  rewrite Hw in R1.
  destruct (EQ (init_state bufsz ops intrvl s t (snd w))) as [A _]; [split; [reflexivity|]; split; [reflexivity|]; split; [apply inv_new; exact Hbuf|exact HW]|].
  destruct (A f _ R1) as (f' & y & R2 & RR). destruct y as [o2 st2|]; [|destruct RR]. destruct RR as [<- RR].
  exists f', o, st2. split; [exact R2|]. destruct Q1 as (Q1 & Q2 & Q3 & Q4). destruct RR as [[(_ & _ & RS) _] _ Rt _ Rc _].
  split; [exact Q1|]. split; [exact Q2|]. split; [congruence|]. rewrite <- Rt. replace (i_furthest (m_src st2)) with (i_furthest (m_src st1)); [exact Q4|].
  unfold abs in RS. congruence.
Qed.
Lemma run_code : forall n p c l lo hi code w r w' x t,
  CG thr MOK TOK [] p (un c) -> lab lo hi c -> shape W c l -> notest (optimize c) -> encode (optimize c) = Some code ->
  eval n [] p 0 w = (Some r, w', x) -> fst w = [] ->
  TI (match intrvl with Some (a, b) => t_edit ops t a b (b - a) | None => t end) 0 ->
  exists f o st', vm_exec bufsz ops check intrvl f code s t (snd w) = Some (ROk o st') /\ final r w' o st'.
Proof.
  intros n p c l lo hi code w r w' x t HC HL HS HN HE He Hw Ht.
  assert (HO : forall x, ~ In (IOpenCall x) c) by (intros y Hy; apply optimize_open in Hy; exact (encode_open _ _ _ HE Hy)).
  assert (Hsrc : srcok bufsz s (i_new bufsz s) 0 0).
  { split; [apply inv_new; exact Hbuf|]. split; [apply abs_new|lia]. }
  destruct (run_sym n p c l lo hi w r w' x (i_new bufsz s) _ (match intrvl with Some rr => rr | None => (0, 0) end) HC HL HS HO He Hsrc Ht) as (f & o & st1 & R1 & Q1).
  eapply code_of_sym; eassumption.
Qed.
(** a pattern without a result runs forever *)
Lemma div_sym : forall p c l lo hi w src tbl rng f y,
  CG thr MOK TOK [] p (un c) -> lab lo hi c -> shape W c l -> (forall x, ~ In (IOpenCall x) c) ->
  ~ conv s CS check [] p 0 w -> srcok bufsz s src 0 0 -> TI tbl 0 ->
  run (sym_step bufsz ops check intrvl (un c)) f (MS 0 src [] [] tbl (fst w) (snd w) rng) = Some y -> False.
Proof.
  intros p c l lo hi w src tbl rng f y HC HL HS HO Hd Hs Ht Hr.
  assert (HN : NoDup (labels (un c))) by (apply lc_nodup; intro z; rewrite lc_un; apply HL).
  pose proof (wide_any c l HS) as HA.
  pose proof (div bufsz Hbuf T ops CS check intrvl s (un c) thr MOK TOK HN HA Hcheck XB XB_mono XB_down XB_max XB_le TI TI_mono H_sync H_get H_put_ok H_put_fail H_tget H_tput (S f) [] p (un c) HC) as DV.
  apply div_0 in DV; [|exact Hbuf].
  assert (A : XX bufsz T ops CS check intrvl (un c) (S f) (MS 0 src [] [] tbl (fst w) (snd w) rng)).
  { apply wpd_XX. refine (DV (fun _ => None) 0 0 w [] [] 0 _ _ (Nat.le_0_l _) Hd I src tbl rng Hs Ht).
    - intros t ins Hti. destruct ins; try exact Hti. exfalso. apply (HO name). apply nth_error_In in Hti. unfold un in Hti. apply in_map_iff in Hti. destruct Hti as (z & Ey & Hy). destruct z; try discriminate; injection Ey as <-; exact Hy.
    - intros z ll Hy. discriminate. }
  apply A. intro Ha. eapply al_run in Hr; [|exact Hbuf|exact Ha]. lia.
Qed.
Lemma div_code : forall p c l lo hi code w t f,
  CG thr MOK TOK [] p (un c) -> lab lo hi c -> shape W c l -> notest (optimize c) -> encode (optimize c) = Some code ->
  ~ conv s CS check [] p 0 w -> fst w = [] ->
  TI (match intrvl with Some (a, b) => t_edit ops t a b (b - a) | None => t end) 0 ->
  vm_exec bufsz ops check intrvl f code s t (snd w) = None.
Proof.
  intros p c l lo hi code w t f HC HL HS HN HE Hd Hw Ht.
  assert (HO : forall x, ~ In (IOpenCall x) c) by (intros y Hy; apply optimize_open in Hy; exact (encode_open _ _ _ HE Hy)).
  assert (Hsrc : srcok bufsz s (i_new bufsz s) 0 0).
  { split; [apply inv_new; exact Hbuf|]. split; [apply abs_new|lia]. }
  destruct (vm_exec bufsz ops check intrvl f code s t (snd w)) as [y|] eqn:R; [|reflexivity]. exfalso.
  assert (EQ : equi bufsz T CS W (sym_step bufsz ops check intrvl (un c)) (vm_step bufsz ops check intrvl code)).
  { eapply (equi_trans _ _ _ check); [apply un_equi; [exact Hbuf|apply (sh_nop _ _ HS)|apply (sh_any _ _ HS)]|].
    eapply (equi_trans _ _ _ check); [apply optimize_equi; [exact Hbuf|apply (sh_any _ _ HS)|exact HN]|]. apply encode_equi; assumption. }
  destruct (EQ (init_state bufsz ops intrvl s t (snd w))) as [_ B]; [split; [reflexivity|]; split; [reflexivity|]; split; [apply inv_new; exact Hbuf|exact HW]|].
  unfold vm_exec in R. destruct (B f _ R) as (f' & x & R2 & _).
  eapply (div_sym p c l lo hi w (i_new bufsz s) _ (match intrvl with Some rr => rr | None => (0, 0) end) f' x HC HL HS HO Hd Hsrc Ht).
  rewrite Hw. exact R2.
Qed.
End Run.

Lemma run_fuel : forall {T CS} (step : mstate T CS -> step_res T CS) f st y, run step f st = Some y -> forall f', f <= f' -> run step f' st = Some y.
Proof.
  intros T CS step. induction f as [|f IH]; intros st y H f' Hf; [discriminate|]. destruct f' as [|f']; [lia|]. cbn [run] in *.
  destruct (step st); try exact H. apply IH; [exact H|lia].
Qed.
Lemma run_det : forall {T CS} (step : mstate T CS -> step_res T CS) f st y f' z, run step f st = Some y -> run step f' st = Some z -> y = z.
Proof.
  intros T CS step f st y f' z H1 H2. apply (fun H => run_fuel _ _ _ _ H (Nat.max f f')) in H1; [|lia]. apply (fun H => run_fuel _ _ _ _ H (Nat.max f f')) in H2; [|lia]. congruence.
Qed.

(* ---------- supported patterns ---------- *)
Lemma unique_grammar : forall defs st, unique_defs (PGrammar defs st) <-> NoDup (names defs) /\ Forall (fun kq => unique_defs (snd kq)) defs.
Proof.
  intros defs st. cbn [unique_defs].
  assert (H : forall l, (fix go (l : list (string * pattern)) : Prop := match l with [] => True | (_, q) :: l => unique_defs q /\ go l end) l <->
     Forall (fun kq => unique_defs (snd kq)) l).
  { induction l as [|[k q] l IH]; [split; constructor|]. rewrite IH. split.
    - intros [H1 H2]. constructor; assumption.
    - intro H. inversion H; subst. auto. }
  rewrite H. tauto.
Qed.
Lemma any_one_grammar : forall defs st, any_one (PGrammar defs st) <-> Forall (fun kq => any_one (snd kq)) defs.
Proof.
  intros defs st. cbn [any_one]. generalize defs. induction defs0 as [|[k q] l IH]; [split; constructor|]. rewrite IH. split.
  - intros [H1 H2]. constructor; assumption.
  - intro H. inversion H; subst. auto.
Qed.
Lemma any_pos_grammar : forall defs st, any_pos (PGrammar defs st) <-> Forall (fun kq => any_pos (snd kq)) defs.
Proof.
  intros defs st. cbn [any_pos]. generalize defs. induction defs0 as [|[k q] l IH]; [split; constructor|]. rewrite IH. split.
  - intros [H1 H2]. constructor; assumption.
  - intro H. inversion H; subst. auto.
Qed.
Definition all_ok : Z -> env -> pattern -> Prop := fun _ _ _ => True.
Lemma supported_pok : forall W p E, supported p -> pok W all_ok E p.
Proof.
  intros W p E (H1 & H2 & H3). revert E H1 H2 H3.
  induction p using pattern_ind'; intros E H1 H2 H3; try (cbn [pok well_scoped unique_defs any_one] in *; unfold all_ok, dotok; intuition auto; fail).
  - apply pok_grammar. pose proof (ws_dok _ _ H1) as Hd. apply unique_grammar in H2. apply any_one_grammar in H3. destruct H2 as [H2 H2'].
    split; [left; exact Hd|]. split; [exact H2|]. pose proof (proj1 (well_scoped_grammar _ _) H1) as H1'. rewrite Forall_forall in *. intros kq Hk. apply H; auto. apply H1'. exact Hk.
  - destruct o as [q|]; cbn [pok well_scoped unique_defs any_one] in *; auto.
  - destruct o as [q|]; cbn [pok well_scoped unique_defs any_one] in *; auto.
Qed.
Lemma wide_pok : forall (W : Prop) p E, W -> well_scoped p -> unique_defs p -> any_pos p -> pok W all_ok E p.
Proof.
  intros W p E HW. revert E.
  induction p using pattern_ind'; intros E H1 H2 H3; try (cbn [pok well_scoped unique_defs any_pos] in *; unfold all_ok, dotok; intuition auto; fail).
  - apply pok_grammar. pose proof (ws_dok _ _ H1) as Hd. apply unique_grammar in H2. apply any_pos_grammar in H3. destruct H2 as [H2 H2'].
    split; [left; exact Hd|]. split; [exact H2|]. pose proof (proj1 (well_scoped_grammar _ _) H1) as H1'. rewrite Forall_forall in *. intros kq Hk. apply H; auto. apply H1'. exact Hk.
  - destruct o as [q|]; cbn [pok well_scoped unique_defs any_pos] in *; auto.
  - destruct o as [q|]; cbn [pok well_scoped unique_defs any_pos] in *; auto.
Qed.
Lemma any1_notest : forall c, any1 False c -> notest (optimize c).
Proof.
  intros c H. apply notest_one; [intros n l Hn; exact (H _ Hn)|]. intros n Hn. pose proof (H _ Hn) as D. cbn [okn] in D. unfold dotok in D. tauto.
Qed.

(* ---------- without memoization ---------- *)
(** the two ways in which Any is allowed: one byte, or short texts *)
Definition fits (bufsz : nat) (s : list byte) (p : pattern) (c : program) : Prop := supported p \/ wide bufsz s p c.
Lemma fits_shape : forall bufsz s thr fuel p st0 c st1, fits bufsz s p c -> compile thr fuel p st0 = COk c st1 ->
  exists (W : Prop) c0 Tl l lo hi, c = optimize c0 /\ (W -> List.length s <= bufsz) /\ CG thr all_ok (tin Tl) [] p (un c0) /\ lab lo hi c0 /\ shape W c0 l /\ notest (optimize c0).
Proof.
  intros bufsz s thr fuel p st0 c st1 Hp Hc.
  unfold compile in Hc. destruct (compile_f thr fuel p st0) as [c0 st1'| | |] eqn:E0; try discriminate. injection Hc as <- <-.
  assert (MS : forall id E q E' q', same_all E q E' q' -> all_ok id E q -> all_ok id E' q') by (intros; exact I).
  destruct Hp as [Hp|(H1 & H2 & H3 & H4 & H5)].
  - destruct (emit False thr all_ok MS fuel [] p st0 c0 st1' E0 (supported_pok False p [] Hp)) as (Tl & Fr & HC & HL & _ & HS).
    exists False; do 5 eexists. split; [reflexivity|]. split; [intros []|]. split; [exact HC|]. split; [exact HL|]. split; [exact HS|]. apply any1_notest. apply (sh_any _ _ HS).
  - destruct (emit True thr all_ok MS fuel [] p st0 c0 st1' E0 (wide_pok True p [] I H1 H2 H3)) as (Tl & Fr & HC & HL & _ & HS).
    exists True; do 5 eexists. split; [reflexivity|]. split; [intros _; exact H4|]. split; [exact HC|]. split; [exact HL|]. split; [exact HS|]. exact H5.
Qed.
Theorem exec_none : forall bufsz CS check intrvl s thr fuel p st0 c st1 code cs0 r errs cs',
  0 < bufsz -> check_ok check s -> fits bufsz s p c ->
  compile thr fuel p st0 = COk c st1 -> encode c = Some code ->
  peg s (CS:=CS) check [] p 0 ([], cs0) r (errs, cs') ->
  exists f o st, vm_exec bufsz none_table check intrvl f code s tt cs0 = Some (ROk o st) /\
    agrees intrvl r o /\ o_errs o = errs /\ m_cs st = cs'.
Proof.
  intros bufsz CS check intrvl s thr fuel p st0 c st1 code cs0 r errs cs' Hbuf Hck Hp Hc He Hr.
  destruct (fits_shape _ _ _ _ _ _ _ _ Hp Hc) as (W & c0 & Tl & l & lo & hi & -> & HW & HC & HL & HS & HN).
  destruct (eval_complete _ _ _ _ _ _ _ _ _ Hr) as (n & x & Hn).
  edestruct (run_code bufsz Hbuf unit none_table CS check intrvl s W HW thr all_ok (tin Tl) Hck (fun _ _ => True)) with (TI := fun (_ : unit) (_ : nat) => True)
    (t := tt) (w := ([], cs0) : world CS) as (f & o & st & R & Q1 & Q2 & Q3 & _); try eassumption; try (intros; exact I); try (intros; discriminate); try reflexivity.
  exists f, o, st. auto.
Qed.

Theorem exec_none_div : forall bufsz CS check intrvl s thr fuel p st0 c st1 code cs0,
  0 < bufsz -> check_ok check s -> fits bufsz s p c ->
  compile thr fuel p st0 = COk c st1 -> encode c = Some code ->
  (forall r w', ~ peg s (CS:=CS) check [] p 0 ([], cs0) r w') ->
  forall f, vm_exec bufsz none_table check intrvl f code s tt cs0 = None.
Proof.
  intros bufsz CS check intrvl s thr fuel p st0 c st1 code cs0 Hbuf Hck Hp Hc He Hd f.
  destruct (fits_shape _ _ _ _ _ _ _ _ Hp Hc) as (W & c0 & Tl & l & lo & hi & -> & HW & HC & HL & HS & HN).
  change cs0 with (snd (([], cs0) : world CS)).
  eapply (div_code bufsz Hbuf unit none_table CS check intrvl s W HW thr all_ok (tin Tl) Hck (fun _ _ => True)) with (TI := fun (_ : unit) (_ : nat) => True)
    (w := ([], cs0) : world CS); try eassumption; try (intros; exact I); try (intros; discriminate); try reflexivity.
  intros (n & r & w' & x & Hn). apply (Hd r w'). eapply eval_sound. exact Hn.
Qed.

(** whatever the machine returns is what the semantics says; in particular it does not panic *)
Theorem exec_none_only : forall bufsz CS check intrvl s thr fuel p st0 c st1 code cs0 f y,
  0 < bufsz -> check_ok check s -> fits bufsz s p c ->
  compile thr fuel p st0 = COk c st1 -> encode c = Some code ->
  vm_exec bufsz none_table check intrvl f code s tt cs0 = Some y ->
  ~ ~ exists r errs cs' o st, y = ROk o st /\ peg s (CS:=CS) check [] p 0 ([], cs0) r (errs, cs') /\
    agrees intrvl r o /\ o_errs o = errs /\ m_cs st = cs'.
Proof.
  intros bufsz CS check intrvl s thr fuel p st0 c st1 code cs0 f y Hbuf Hck Hp Hc He Hy Hn.
  assert (Hd : forall r w', ~ peg s (CS:=CS) check [] p 0 ([], cs0) r w').
  { intros r [errs cs'] Hr. apply Hn. destruct (exec_none bufsz CS check intrvl s thr fuel p st0 c st1 code cs0 r errs cs' Hbuf Hck Hp Hc He Hr) as (f' & o & st & H1 & H2 & H3 & H4).
    exists r, errs, cs', o, st. split; [|auto]. eapply run_det; [exact Hy|exact H1]. }
  rewrite (exec_none_div bufsz CS check intrvl s thr fuel p st0 c st1 code cs0 Hbuf Hck Hp Hc He Hd f) in Hy. discriminate.
Qed.
Theorem exec_none_safe : forall bufsz CS check intrvl s thr fuel p st0 c st1 code (cs0 : CS) f,
  0 < bufsz -> check_ok check s -> fits bufsz s p c ->
  compile thr fuel p st0 = COk c st1 -> encode c = Some code ->
  vm_exec bufsz none_table check intrvl f code s tt cs0 <> Some RCrash.
Proof.
  intros bufsz CS check intrvl s thr fuel p st0 c st1 code cs0 f Hbuf Hck Hp Hc He Hy.
  refine (exec_none_only bufsz CS check intrvl s thr fuel p st0 c st1 code cs0 f RCrash Hbuf Hck Hp Hc He Hy _).
  intros (r & errs & cs' & o & st & H & _). discriminate.
Qed.
