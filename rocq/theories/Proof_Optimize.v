(** Rewriting of instruction lists keeps their behaviour: the Nop behind a tail call, and Optimize. *)
From Verif Require Import Base Model_Charset Model_Isa Model_Capture Model_Input Spec_Input Proof_Input Model_Code Model_VM Model_Pattern Proof_Machine Proof_Compile Proof_Emit Proof_Sim.
Local Open Scope nat_scope.
Arguments Nat.max : simpl never.

Lemma lbl_index_aux_pos : forall p l i acc, (exists k, lbl_index_aux p l i acc = i + k /\ nth_error p k = Some (ILabel l)) \/ lbl_index_aux p l i acc = acc.
Proof.
  induction p as [|ins p IH]; intros l i acc; [right; reflexivity|].
  assert (G : forall acc', (exists k, lbl_index_aux p l (S i) acc' = i + k /\ nth_error (ins :: p) k = Some (ILabel l)) \/ lbl_index_aux p l (S i) acc' = acc').
  { intro acc'. destruct (IH l (S i) acc') as [(k & H1 & H2)|H]; [left; exists (S k); split; [lia|exact H2]|right; exact H]. }
  destruct ins; cbn [lbl_index_aux]; try apply G.
  destruct (Nat.eqb_spec l0 l) as [->|]; [|apply G]. left. destruct (G i) as [H|H]; [exact H|]. exists 0. split; [lia|reflexivity].
Qed.
Lemma lbl_index_pos : forall p l, nth_error p (lbl_index p l) = Some (ILabel l) \/ lbl_index p l = 0.
Proof. intros p l. unfold lbl_index. destruct (lbl_index_aux_pos p l 0 0) as [(k & H1 & H2)|H]; [left; rewrite H1; exact H2|right; exact H]. Qed.
Lemma lbl_index_aux_same : forall p p', List.length p = List.length p' -> (forall k l, nth_error p k = Some (ILabel l) <-> nth_error p' k = Some (ILabel l)) ->
  forall l i acc, lbl_index_aux p l i acc = lbl_index_aux p' l i acc.
Proof.
  induction p as [|a p IH]; intros [|b p'] Hl H l i acc; try discriminate; [reflexivity|]. injection Hl as Hl.
  assert (G : forall l i acc, lbl_index_aux p l i acc = lbl_index_aux p' l i acc) by (apply IH; [exact Hl|]; intros k l'; exact (H (S k) l')).
  assert (Hab : forall l, a = ILabel l <-> b = ILabel l).
  { intro l'. specialize (H 0 l'). cbn [nth_error] in H. split; intros ->; [destruct H as [H _]|destruct H as [_ H]]; specialize (H eq_refl); congruence. }
  assert (Hd : (exists l, a = ILabel l) \/ forall l, a <> ILabel l) by (destruct a; ((right; discriminate) || (left; eexists; reflexivity))).
  destruct Hd as [(l' & ->)|Hd].
  - rewrite (proj1 (Hab l') eq_refl). cbn [lbl_index_aux]. apply G.
  - assert (Hd' : forall l, b <> ILabel l) by (intros l' E; apply (Hd l'), Hab, E).
    assert (N : forall q c, (forall l, c <> ILabel l) -> lbl_index_aux (c :: q) l i acc = lbl_index_aux q l (S i) acc).
    { intros q c Hc. destruct c; try reflexivity. destruct (Hc l0 eq_refl). }
    rewrite !N by assumption. apply G.
Qed.
Lemma lbl_index_same : forall p p', List.length p = List.length p' -> (forall k l, nth_error p k = Some (ILabel l) <-> nth_error p' k = Some (ILabel l)) ->
  forall l, lbl_index p l = lbl_index p' l.
Proof. intros. apply lbl_index_aux_same; assumption. Qed.

Section Opt.
Variable bufsz : nat.
Hypothesis Hbuf : 0 < bufsz.
Variable T : Type.
Variable ops : table_ops T.
Variable CS : Type.
Variable check : nat -> CS -> list byte -> list byte -> nat -> Z -> Z -> CS * option nat.
Variable intrvl : option (nat * nat).
(** when [W] holds the text fits in one chunk *)
Variable W : Prop.
Notation okn := (okn W).
Notation any1 := (any1 W).
Notation mstate := (mstate T CS).
Notation step := (sym_step bufsz ops check intrvl).

(** final states that differ only in the stack and the cached chunk *)
Record finR (a b : mstate) : Prop := FinR {
  f_src : srcR bufsz W False (m_src a) (m_src b);
  f_base : m_base a = m_base b;
  f_tbl : m_tbl a = m_tbl b;
  f_errs : m_errs a = m_errs b;
  f_cs : m_cs a = m_cs b;
  f_range : m_range a = m_range b }.
Lemma stR_fin : forall sm rho a b, stR bufsz T CS W sm rho a b -> finR a b.
Proof. intros sm rho a b [[H [_ Hw]]]. split; try assumption. split; [exact H|split; [intros []|exact Hw]]. Qed.
Lemma srcR_trans : forall a b c, srcR bufsz W False a b -> srcR bufsz W False b c -> srcR bufsz W False a c.
Proof. intros a b c [(A1 & A2 & A3) _] [(B1 & B2 & B3) [_ Bw]]. split; [|split; [intros []|exact Bw]]. split; [exact A1|]. split; [exact B2|]. congruence. Qed.
Lemma srcR_sym : forall a b, srcR bufsz W False a b -> srcR bufsz W False b a.
Proof. intros a b [(A1 & A2 & A3) [_ Aw]]. split; [|split; [intros []|intro Hw; apply (f_equal c_data) in A3; cbn in A3; rewrite A3; exact (Aw Hw)]]. split; [exact A2|]. split; [exact A1|]. congruence. Qed.
Lemma finR_trans : forall a b c, finR a b -> finR b c -> finR a c.
Proof. intros a b c [] []. split; try congruence. eapply srcR_trans; eassumption. Qed.
Lemma finR_sym : forall a b, finR a b -> finR b a.
Proof. intros a b []. split; try congruence. apply srcR_sym. assumption. Qed.

(** both machines do the same from every start state *)
Definition starts (st : mstate) : Prop :=
  m_ip st = 0 /\ m_stk st = [] /\ inv bufsz (m_src st) /\ (W -> List.length (i_data (m_src st)) <= bufsz).
Definition equi (sa sb : mstate -> step_res T CS) : Prop := forall st, starts st ->
  (forall f x, run sa f st = Some x -> exists f' y, run sb f' st = Some y /\ rres finR x y) /\
  (forall f y, run sb f st = Some y -> exists f' x, run sa f' st = Some x /\ rres finR x y).
Lemma rres_trans : forall a b c, rres finR a b -> rres finR b c -> rres finR a c.
Proof. intros [oa a|] [ob b|] [oc c|]; cbn [rres]; try tauto. intros [-> H1] [-> H2]. split; [reflexivity|]. eapply finR_trans; eassumption. Qed.
Lemma equi_trans : forall a b c, equi a b -> equi b c -> equi a c.
Proof.
  intros a b c H1 H2 st Hs. destruct (H1 st Hs) as [A1 A2], (H2 st Hs) as [B1 B2]. split.
  - intros f x Hx. destruct (A1 _ _ Hx) as (f1 & y & Hy & R1). destruct (B1 _ _ Hy) as (f2 & z & Hz & R2). exists f2, z. split; [exact Hz|]. eapply rres_trans; eassumption.
  - intros f x Hx. destruct (B2 _ _ Hx) as (f1 & y & Hy & R1). destruct (A2 _ _ Hy) as (f2 & z & Hz & R2). exists f2, z. split; [exact Hz|]. eapply rres_trans; eassumption.
Qed.

Definition rel (sm : Prop) (rho : nat -> nat -> Prop) (a b : mstate) : Prop := stR bufsz T CS W sm rho a b /\ rho (m_ip a) (m_ip b).
Lemma starts_rel : forall sm (rho : nat -> nat -> Prop) st, rho 0 0 -> starts st -> rel sm rho st st.
Proof.
  intros sm rho st H (H1 & H2 & H3 & H4). split; [|rewrite H1; exact H]. split; try reflexivity; [apply srcR_refl; [exact H3|exact H4]|]. rewrite H2. constructor.
Qed.
Definition synced (sa sb : mstate -> step_res T CS) (sm : Prop) (rho : nat -> nat -> Prop) (a b : mstate) : Prop :=
  exists n m ra rb, reach sa n a ra /\ reach sb m b rb /\ sres (rel sm rho) finR ra rb.
Lemma equi_sync : forall sa sb sm (rho : nat -> nat -> Prop), rho 0 0 -> (forall a b, rel sm rho a b -> synced sa sb sm rho a b) -> equi sa sb.
Proof.
  intros sa sb sm rho H0 H st Hs. pose proof (starts_rel sm rho st H0 Hs) as Hr. split.
  - intros f x Hx. eapply sync_run; [exact H|exact Hr|exact Hx].
  - intros f x Hx. eapply sync_back; [exact H|exact Hr|exact Hx].
Qed.
Lemma resR_sres : forall sm (rho : nat -> nat -> Prop) ia ib ra rb, rho ia ib -> resR bufsz T CS W sm rho ia ib ra rb -> sres (rel sm rho) finR ra rb.
Proof.
  intros sm rho ia ib ra rb H Hr. destruct ra, rb; cbn [resR sres] in *; try contradiction; try exact I.
  - destruct Hr as [H1 [H2|[E1 E2]]]; split; auto. rewrite E1, E2. exact H.
  - destruct Hr as [H1 H2]. split; [exact H1|]. eapply stR_fin. eassumption.
Qed.
Lemma sym_some : forall p (a : mstate) i, nth_error p (m_ip a) = Some i ->
  step p a = if is_label_or_nop i then Next (set_ip (S (m_ip a)) a) else exec_d bufsz ops check intrvl (map_lbl (lbl_index p) i) (S (m_ip a)) a.
Proof. intros p a i H. unfold sym_step. rewrite H. destruct i; reflexivity. Qed.
Lemma sym_sync : forall p p' sm (rho : nat -> nat -> Prop) a b,
  (forall l, rho (lbl_index p l) (lbl_index p' l)) ->
  rel sm rho a b ->
  nth_error p (m_ip a) = nth_error p' (m_ip b) ->
  (nth_error p (m_ip a) = None -> (m_ip a = List.length p <-> m_ip b = List.length p')) ->
  (forall i, nth_error p (m_ip a) = Some i -> (sm \/ okn i) /\ (uses_next i = true -> rho (S (m_ip a)) (S (m_ip b)))) ->
  synced (step p) (step p') sm rho a b.
Proof.
  intros p p' sm rho a b Hl [H Hr] Hi Hn Ho. exists 1, 1, (step p a), (step p' b).
  split; [constructor; reflexivity|]. split; [constructor; reflexivity|].
  destruct (nth_error p (m_ip a)) as [i|] eqn:E.
  - destruct (Ho _ eq_refl) as [O1 O2]. rewrite (sym_some p a i E), (sym_some p' b i (eq_sym Hi)). destruct (is_label_or_nop i) eqn:Ei.
    + split; [apply stR_ip; exact H|]. apply O2. destruct i; try discriminate; reflexivity.
    + apply (resR_sres sm rho (m_ip a) (m_ip b) _ _ Hr). apply exec_R; auto.
  - unfold sym_step. rewrite E, <- Hi. specialize (Hn eq_refl).
    destruct (Nat.eqb_spec (m_ip a) (List.length p)), (Nat.eqb_spec (m_ip b) (List.length p')); try tauto; try exact I.
    split; [apply finish_R with (1 := H)|]. eapply stR_fin. exact H.
Qed.

(* ---------- the Nop behind a tail call ---------- *)
Lemma un_equi : forall p, nopj p -> any1 p -> equi (step (un p)) (step p).
Proof.
  intros p Hn Ha.
  set (rho := fun x y => x = y /\ nth_error p x <> Some INop).
  assert (Hl : forall l, lbl_index (un p) l = lbl_index p l).
  { apply lbl_index_same; [apply un_len|]. intros k l. rewrite un_nth. destruct (nth_error p k) as [[]|]; simpl; split; intros E; try discriminate; exact E. }
  apply equi_sync with False rho; [split; [reflexivity|apply nopj_head; exact Hn]|].
  intros a b H. pose proof H as [_ [Hx Hy]]. apply sym_sync; auto.
  - intro l. rewrite Hl. split; [reflexivity|]. destruct (lbl_index_pos p l) as [E|E]; rewrite E; [discriminate|apply nopj_head; exact Hn].
  - rewrite un_nth, <- Hx. destruct (nth_error p (m_ip a)) as [[]|]; try reflexivity. destruct Hy; reflexivity.
  - intros _. rewrite un_len, Hx. reflexivity.
  - intros i Hi. rewrite un_nth in Hi. destruct (nth_error p (m_ip a)) as [j|] eqn:Ej; [|discriminate]. injection Hi as <-.
    assert (Hj : unnop j = j) by (destruct j; try reflexivity; destruct Hy; reflexivity). rewrite Hj. split; [right; apply Ha; eapply nth_error_In; exact Ej|].
    intro Hu. split; [congruence|]. intro E. destruct (Hn _ E) as (k & l & Ek & El). injection Ek as <-. rewrite Ej in El. injection El as ->. discriminate.
Qed.

(* ---------- Optimize ---------- *)
Lemma skipn_tl : forall {A} t (p q : list A) i, skipn t p = i :: q -> skipn (S t) p = q.
Proof.
  induction t as [|t IH]; intros p q i H; destruct p as [|x p]; try discriminate.
  - injection H as _ H. exact H.
  - exact (IH p q i H).
Qed.
Lemma walk : forall p q t j, skipn t p = q -> next_insn q = Some j -> exists v, t <= v /\ nth_error p v = Some j /\ is_label_or_nop j = false /\
  forall n st r, m_ip st = t -> reach (step p) n (set_ip v st) r -> exists n', reach (step p) n' st r.
Proof.
  intros p q. induction q as [|i q IH]; intros t j Hs Hn; [discriminate|].
  assert (Hi : nth_error p t = Some i) by (rewrite <- (Nat.add_0_r t), <- (nth_skipn p t 0), Hs; reflexivity).
  assert (Hs' : skipn (S t) p = q) by (apply skipn_tl with i; exact Hs).
  cbn [next_insn] in Hn. destruct (is_label_or_nop i) eqn:Ei.
  - destruct (IH (S t) j Hs' Hn) as (v & H1 & H2 & H3 & H4). exists v. split; [lia|]. split; [exact H2|]. split; [exact H3|].
    intros n st r Hst Hr. destruct (H4 n (set_ip (S t) st) r eq_refl) as (n' & Hn').
    + destruct st; exact Hr.
    + exists (S n'). eapply reach_more; [|exact Hn']. rewrite (sym_some p st i) by (rewrite Hst; exact Hi). rewrite Ei, Hst. reflexivity.
  - injection Hn as ->. exists t. split; [lia|]. split; [exact Hi|]. split; [exact Ei|]. intros n st r <- Hr. exists n. destruct st; exact Hr.
Qed.
Lemma upd_other : forall (p : program) i x k, k <> i -> nth_error (upd i x p) k = nth_error p k.
Proof. intros. rewrite upd_nth. destruct (Nat.eqb_spec i k); [congruence|reflexivity]. Qed.
Lemma upd_same : forall (p : program) i x, i < List.length p -> nth_error (upd i x p) i = Some x.
Proof. intros p i x H. rewrite upd_nth, Nat.eqb_refl. destruct (Nat.ltb_spec i (List.length p)); [reflexivity|lia]. Qed.
Lemma nth_lt : forall {A} (p : list A) i x, nth_error p i = Some x -> i < List.length p.
Proof. intros A p i x H. apply nth_error_Some. congruence. Qed.

(** the tests merged with a Choice *)
Definition head (l : nat) (h t : insn) : Prop :=
  match h, t with
  | IChar b, ITestChar b' l' => b = b' /\ l = l'
  | ISet s, ITestSet s' l' => s = s' /\ l = l'
  | IAny n, ITestAny n' l' => n = n' /\ l = l'
  | _, _ => False
  end.
Definition headx (h : insn) (src : input) : bool * input :=
  match h with
  | IAny n => i_advance bufsz src (N.to_nat (bN n))
  | _ =>
      let r := i_peek src in
      let ok := match fst r with Some c => match h with IChar b => byte_eqb b c | ISet s => cs_has s c | _ => false end | None => false end in
      (ok, if ok then snd (i_advance bufsz (snd r) 1) else snd r)
  end.
Lemma beq_sym : forall a b, byte_eqb a b = byte_eqb b a.
Proof.
  intros a b. destruct (byte_eqb a b) eqn:E.
  - apply byte_eqb_eq in E. subst. symmetry. apply byte_eqb_refl.
  - apply byte_eqb_neq in E. symmetry. apply byte_eqb_neq. congruence.
Qed.
Lemma head_exec : forall l h t f next st, head l h t ->
  exec_d bufsz ops check intrvl (map_lbl f h) next st =
    (let r := headx h (m_src st) in if fst r then Next (set_ip next (set_src (snd r) st)) else fail bufsz ops intrvl (set_src (snd r) st)) /\
  exec_d bufsz ops check intrvl (map_lbl f t) next st =
    (let r := headx h (m_src st) in if fst r then Next (set_ip next (set_src (snd r) (push (KBtrack (f l) (mpos st)) st))) else Next (set_ip (f l) (set_src (snd r) st))).
Proof.
  intros l h t f next st H. destruct h; try contradiction; destruct t; try contradiction; destruct H as [<- <-]; cbn [map_lbl exec_d headx]; unfold peek, mpos; destruct st as [ip src k bs tb er c rg]; cbn [m_src].
  - pose proof (eq_refl : i_pos (snd (i_peek src)) = i_pos src) as Ep. destruct (i_peek src) as [[c1|] s1]; cbn [fst snd] in *; [|split; reflexivity].
    rewrite (beq_sym c1 b). destruct (byte_eqb b c1); split; try reflexivity. cbn [set_src m_src set_ip push set_stk m_stk m_base advance1 advance]. cbn. rewrite Ep. reflexivity.
  - pose proof (eq_refl : i_pos (snd (i_peek src)) = i_pos src) as Ep. destruct (i_peek src) as [[c1|] s1]; cbn [fst snd] in *; [|split; reflexivity].
    destruct (cs_has s c1); split; try reflexivity. cbn. rewrite Ep. reflexivity.
  - destruct (i_advance bufsz src (N.to_nat (bN n))) as [[] s1]; split; reflexivity.
Qed.
Lemma head_R : forall l h t a b, head l h t -> (forall n, h = IAny n -> n = x01) -> srcR bufsz W False a b -> fst (headx h a) = fst (headx h b) /\ srcR bufsz W False (snd (headx h a)) (snd (headx h b)) /\
  (fst (headx h b) = false -> i_pos (snd (headx h b)) = i_pos b).
Proof.
  intros l h t a b Hh Ho H. destruct h; try contradiction; cbn [headx fst snd].
  - destruct (srcR_peek bufsz Hbuf W False _ _ H) as [H1 H2]. rewrite H1. split; [reflexivity|].
    destruct (match fst (i_peek b) with Some c => byte_eqb b0 c | None => false end); (split; [|intros E; try discriminate; reflexivity]); [eapply srcR_advance; eassumption|exact H2].
  - destruct (srcR_peek bufsz Hbuf W False _ _ H) as [H1 H2]. rewrite H1. split; [reflexivity|].
    destruct (match fst (i_peek b) with Some c => cs_has s c | None => false end); (split; [|intros E; try discriminate; reflexivity]); [eapply srcR_advance; eassumption|exact H2].
  - pose proof (Ho _ eq_refl) as ->. change (N.to_nat (bN x01)) with 1. split; [eapply srcR_advance1; eassumption|]. split; [eapply srcR_advance; eassumption|].
    destruct H as [(_ & Hb & _) _]. destruct (advance_1 bufsz Hbuf b Hb) as (_ & E). cbv zeta in E. destruct (i_pos b + 1 <=? List.length (i_data b)).
    + injection E as -> E. discriminate.
    + injection E as E1 E2. intros _. unfold abs in E2. congruence.
Qed.
Lemma head_equi : forall p i l h t, nth_error p i = Some (IChoice l) -> nth_error p (S i) = Some h -> head l h t -> any1 p -> (forall n, h = IAny n -> n = x01) ->
  equi (step p) (step (upd (S i) INop (upd i t p))).
Proof.
  intros p i l h t Hi Hh Ht Ha Hone. set (p' := upd (S i) INop (upd i t p)).
  set (rho := fun x y : nat => x = y /\ x <> S i).
  assert (Hlen : List.length p' = List.length p) by (unfold p'; rewrite !upd_len; reflexivity).
  assert (Ho : forall k, k <> i -> k <> S i -> nth_error p' k = nth_error p k) by (intros k H1 H2; unfold p'; rewrite !upd_other by assumption; reflexivity).
  assert (Ei : nth_error p' i = Some t) by (unfold p'; rewrite upd_other by lia; apply upd_same; eapply nth_lt; exact Hi).
  assert (Es : nth_error p' (S i) = Some INop) by (unfold p'; apply upd_same; rewrite upd_len; eapply nth_lt; exact Hh).
  assert (Hl : forall x, lbl_index p x = lbl_index p' x).
  { apply lbl_index_same; [symmetry; exact Hlen|]. intros k x. destruct (Nat.eq_dec k i) as [->|]; [|destruct (Nat.eq_dec k (S i)) as [->|]].
    - rewrite Hi, Ei. destruct h, t; try contradiction; split; discriminate.
    - rewrite Hh, Es. destruct h, t; try contradiction; split; discriminate.
    - rewrite Ho by assumption. reflexivity. }
  assert (Hr : forall x, rho (lbl_index p x) (lbl_index p' x)).
  { intro x. split; [apply Hl|]. intro E. destruct (lbl_index_pos p x) as [H|H]; [|lia]. rewrite E, Hh in H. injection H as ->. destruct t; contradiction. }
  apply equi_sync with False rho; [split; [reflexivity|discriminate]|].
  intros a b H. pose proof H as [Hs [Hx Hy]]. destruct (Nat.eq_dec (m_ip a) i) as [E|E].
  - assert (Eb : m_ip b = i) by congruence.
    assert (Hlab : is_label_or_nop h = false /\ is_label_or_nop t = false) by (destruct h, t; try contradiction; auto).
    pose proof (sym_some p a (IChoice l)) as A1. rewrite E in A1. specialize (A1 Hi). cbn [is_label_or_nop map_lbl exec_d] in A1.
    match type of A1 with _ = Next ?x => set (a1 := x) in A1 end.
    pose proof (sym_some p a1 h Hh) as A2. rewrite (proj1 Hlab) in A2.
    pose proof (sym_some p' b t) as B1. rewrite Eb in B1. specialize (B1 Ei). rewrite (proj2 Hlab) in B1.
    rewrite (proj1 (head_exec l h t (lbl_index p) (S (m_ip a1)) a1 Ht)) in A2. rewrite (proj2 (head_exec l h t (lbl_index p') (S i) b Ht)) in B1. cbv zeta in A2, B1.
    change (m_src a1) with (m_src a) in A2.
    destruct (head_R l h t (m_src a) (m_src b) Ht Hone (r_src _ _ _ _ _ _ _ _ Hs)) as (R1 & R2 & R3). rewrite R1 in A2.
    assert (Hk : kR rho (KBtrack (lbl_index p l) (mpos a)) (KBtrack (lbl_index p' l) (mpos b))) by (split; [apply Hr|apply (stR_pos _ _ _ _ _ _ _ _ Hs)]).
    pose proof (stR_push bufsz T CS W False rho _ _ _ _ Hs Hk) as Hs1.
    destruct (fst (headx h (m_src b))).
    + exists 2, 2. do 2 eexists. split; [eapply reach_more; [exact A1|]; apply reach_one; exact A2|].
      split; [eapply reach_more; [exact B1|]; apply reach_one; apply (sym_some p' _ INop); exact Es|].
      cbn [is_label_or_nop sres]. split; [|split; [reflexivity|cbn; lia]].
      destruct Hs1. split; try assumption.
    + exists 2, 1. do 2 eexists. split; [eapply reach_more; [exact A1|]; apply reach_one; exact A2|].
      split; [apply reach_one; exact B1|]. unfold fail. cbn [m_stk set_src a1 set_ip push set_stk do_fail s_kind sres].
      split; [|apply Hr].
      assert (Hsrc : srcR bufsz W False (snd (i_seek bufsz (snd (headx h (m_src a))) (mpos a))) (snd (headx h (m_src b)))).
      { specialize (R3 eq_refl). destruct R2 as [(Q1 & Q2 & Q3) [_ Qw]].
        destruct (seek_ok bufsz Hbuf (snd (headx h (m_src a))) (mpos a) Q1) as (S1 & S2 & _).
        split; [|split; [intros []|exact Qw]]. split; [exact S1|]. split; [exact Q2|]. rewrite S2. pose proof (stR_pos _ _ _ _ _ _ _ _ Hs) as Hm. unfold mpos in Hm.
        unfold abs in Q3 |- *. unfold mpos. rewrite Hm, <- R3. congruence. }
      destruct Hs. split; assumption.
  - apply sym_sync; auto.
    + rewrite <- Hx. symmetry. apply Ho; assumption.
    + intros _. rewrite Hlen, Hx. reflexivity.
    + intros j Hj. split; [right; apply Ha; eapply nth_error_In; exact Hj|]. intros _. split; [congruence|lia].
Qed.
Lemma jump_equi : forall p i l j, nth_error p i = Some (IJump l) -> next_insn (skipn (lbl_index p l) p) = Some j -> uses_next j = false -> any1 p ->
  equi (step p) (step (upd i j p)).
Proof.
  intros p i l j Hi Hn Hu Ha. set (p' := upd i j p).
  destruct (walk p _ _ _ eq_refl Hn) as (v & V1 & V2 & V3 & V4).
  set (rho := fun x y : nat => x = y \/ x = v /\ y = i).
  assert (Hlen : List.length p' = List.length p) by (unfold p'; rewrite !upd_len; reflexivity).
  assert (Ho : forall k, k <> i -> nth_error p' k = nth_error p k) by (intros k H1; unfold p'; rewrite !upd_other by assumption; reflexivity).
  assert (Ei : nth_error p' i = Some j) by (unfold p'; apply upd_same; eapply nth_lt; exact Hi).
  assert (Hl : forall x, lbl_index p x = lbl_index p' x).
  { apply lbl_index_same; [symmetry; exact Hlen|]. intros k x. destruct (Nat.eq_dec k i) as [->|].
    - rewrite Hi, Ei. split; [discriminate|]. intro E. injection E as ->. discriminate.
    - rewrite Ho by assumption. reflexivity. }
  assert (Hr : forall x, rho (lbl_index p x) (lbl_index p' x)) by (intro x; left; apply Hl).
  assert (Hj : okn j) by (apply Ha; eapply nth_error_In; exact V2).
  apply equi_sync with False rho; [left; reflexivity|].
  assert (G : forall a b, stR bufsz T CS W False rho a b -> m_ip a = v -> m_ip b = i -> synced (step p) (step p') False rho a b).
  { intros a b Hs E1 E2. apply sym_sync; auto.
    - split; [exact Hs|]. right. auto.
    - rewrite E1, E2, V2, Ei. reflexivity.
    - rewrite E1, V2. discriminate.
    - rewrite E1, V2. intros k E. injection E as <-. split; [right; exact Hj|]. rewrite Hu. discriminate. }
  intros a b H. pose proof H as [Hs [Hx|[Hx Hy]]]; [|apply G; assumption].
  destruct (Nat.eq_dec (m_ip a) i) as [E|E].
  - pose proof (sym_some p a (IJump l)) as A1. rewrite E in A1. specialize (A1 Hi). cbn [is_label_or_nop map_lbl exec_d] in A1.
    destruct (G (set_ip v a) b) as (n & m & ra & rb & G1 & G2 & G3).
    + destruct Hs; split; assumption.
    + reflexivity.
    + congruence.
    + destruct (V4 n (set_ip (lbl_index p l) a) ra eq_refl) as (n' & N'); [destruct a; exact G1|].
      exists (S n'), m, ra, rb. split; [eapply reach_more; [exact A1|exact N']|]. auto.
  - apply sym_sync; auto.
    + rewrite <- Hx. symmetry. apply Ho; assumption.
    + intros _. rewrite Hlen, Hx. reflexivity.
    + intros k Hk. split; [right; apply Ha; eapply nth_error_In; exact Hk|]. intros _. left. congruence.
Qed.
Lemma run_inv_refl : forall p, any1 p -> equi (step p) (step p).
Proof.
  intros p Ha. apply equi_sync with False (fun x y => x = y); [reflexivity|].
  intros a b H. pose proof H as [_ Hx]. apply sym_sync; auto.
  - rewrite Hx. reflexivity.
  - intros i Hi. split; [right; apply Ha; eapply nth_error_In; exact Hi|]. congruence.
Qed.
Lemma any1_upd : forall p i x, any1 p -> okn x -> any1 (upd i x p).
Proof.
  intros p i x H Hx y Hy. apply In_nth_error in Hy. destruct Hy as (k & Hk). rewrite upd_nth in Hk. destruct (_ && _).
  - injection Hk as <-. exact Hx.
  - apply H. eapply nth_error_In. exact Hk.
Qed.
Lemma in_upd : forall (p : program) i x y, In y (upd i x p) -> y = x \/ In y p.
Proof.
  intros p i x y H. apply In_nth_error in H. destruct H as (k & Hk). rewrite upd_nth in Hk. destruct (_ && _); [left; congruence|right]. eapply nth_error_In. exact Hk.
Qed.
Lemma opt_any_in : forall lbl p i n, In (IAny n) (opt_step lbl p i) -> In (IAny n) p.
Proof.
  intros lbl p i n H. unfold opt_step in H.
  repeat match type of H with context [match ?x with _ => _ end] => destruct x end; try exact H; repeat (apply in_upd in H; destruct H as [H|H]; [discriminate|]); exact H.
Qed.
Lemma opt_test_in : forall lbl p i n l, In (ITestAny n l) (opt_step lbl p i) -> In (ITestAny n l) p \/ In (IAny n) p.
Proof.
  intros lbl p i n l H. unfold opt_step in H. destruct (nth_error p i) as [[]|] eqn:Ei; auto.
  - destruct (next_insn _) as [[]|]; auto; apply in_upd in H; destruct H as [H|H]; try discriminate; auto.
  - destruct (nth_error p (S i)) as [[]|] eqn:Es; auto; apply in_upd in H; destruct H as [H|H]; try discriminate; apply in_upd in H; destruct H as [H|H]; auto; try discriminate.
    injection H as <- <-. right. eapply nth_error_In. exact Es.
Qed.
Lemma in_nth : forall (p : program) x, In x p <-> exists k, nth_error p k = Some x.
Proof. intros. split; [apply In_nth_error|intros (k & H); eapply nth_error_In; exact H]. Qed.
(** a test is never overwritten *)
Lemma opt_test_keep : forall lbl p i n l, In (ITestAny n l) p -> In (ITestAny n l) (opt_step lbl p i).
Proof.
  intros lbl p i n l H. unfold opt_step. apply in_nth in H. destruct H as (k & Hk).
  assert (D : forall j x, nth_error p j <> Some (ITestAny n l) -> nth_error (upd j x p) k = Some (ITestAny n l)).
  { intros j x Hj. rewrite upd_other; [exact Hk|]. intros ->. exact (Hj Hk). }
  destruct (nth_error p i) as [[]|] eqn:Ei; try (eapply nth_error_In; exact Hk).
  - destruct (next_insn _) as [[]|]; try (eapply nth_error_In; exact Hk); eapply nth_error_In; apply D; congruence.
  - destruct (nth_error p (S i)) as [[]|] eqn:Es; try (eapply nth_error_In; exact Hk);
      eapply nth_error_In; rewrite upd_other; [apply D; congruence|intros ->; congruence|apply D; congruence|intros ->; congruence|apply D; congruence|intros ->; congruence].
Qed.
Definition notest (p : program) : Prop := forall n l, In (ITestAny n l) p -> n = x01.
Lemma fold_test_keep : forall lbl l p n x, In (ITestAny n x) p -> In (ITestAny n x) (fold_left (opt_step lbl) l p).
Proof. induction l as [|i l IH]; intros p n x H; [exact H|]. cbn [fold_left]. apply IH. apply opt_test_keep. exact H. Qed.
Lemma fold_any_in : forall lbl l p n, In (IAny n) (fold_left (opt_step lbl) l p) -> In (IAny n) p.
Proof. induction l as [|i l IH]; intros p n H; [exact H|]. cbn [fold_left] in H. apply IH in H. eapply opt_any_in. exact H. Qed.
Lemma fold_test_in : forall lbl l p n x, In (ITestAny n x) (fold_left (opt_step lbl) l p) -> In (ITestAny n x) p \/ In (IAny n) p.
Proof.
  induction l as [|i l IH]; intros p n x H; [auto|]. cbn [fold_left] in H. apply IH in H. destruct H as [H|H]; [eapply opt_test_in; exact H|right; eapply opt_any_in; exact H].
Qed.
Lemma opt_step_any1 : forall lbl p i, any1 p -> notest (opt_step lbl p i) -> any1 (opt_step lbl p i).
Proof. intros lbl p i Ha Hn x Hx. destruct x; try exact I; [apply opt_any_in in Hx; exact (Ha _ Hx)|exact (Hn _ _ Hx)]. Qed.
Lemma opt_step_ok : forall p i, any1 p -> notest (opt_step (lbl_index p) p i) -> equi (step p) (step (opt_step (lbl_index p) p i)) /\
  forall l, lbl_index (opt_step (lbl_index p) p i) l = lbl_index p l.
Proof.
  intros p i Ha. unfold opt_step. intro Hnt.
  assert (Z : equi (step p) (step p) /\ forall l, lbl_index p l = lbl_index p l) by (split; [apply run_inv_refl; exact Ha|auto]).
  assert (Hhd : forall l h t, nth_error p i = Some (IChoice l) -> nth_error p (S i) = Some h -> head l h t -> (forall n, h = IAny n -> n = x01) ->
    equi (step p) (step (upd (S i) INop (upd i t p))) /\ forall x, lbl_index (upd (S i) INop (upd i t p)) x = lbl_index p x).
  { intros l h t H1 H2 H3 H4. split; [eapply head_equi; eassumption|].
    apply lbl_index_same; [rewrite !upd_len; reflexivity|]. intros k x. rewrite upd_nth, upd_nth. rewrite upd_len.
      destruct (Nat.eqb_spec (S i) k) as [<-|]; cbn [andb].
      + destruct (_ <? _); [|destruct (Nat.eqb_spec i (S i)); [lia|cbn [andb]]]; rewrite H2; split; intros E; try discriminate; exact E || (injection E as ->; destruct t; contradiction).
      + destruct (Nat.eqb_spec i k) as [<-|]; cbn [andb]; [|reflexivity]. destruct (_ <? _); [|reflexivity]. rewrite H1. split; intro E; [injection E as ->; destruct h; contradiction|discriminate]. }
  destruct (nth_error p i) as [[]|] eqn:Ei; try exact Z.
  - destruct (next_insn (skipn (lbl_index p l) p)) as [j|] eqn:Ej; [|exact Z].
    assert (D : uses_next j = false -> equi (step p) (step (upd i j p)) /\ forall x, lbl_index (upd i j p) x = lbl_index p x).
    { intro Hu. split; [eapply jump_equi; eassumption|].
      apply lbl_index_same; [rewrite upd_len; reflexivity|]. intros k x. rewrite upd_nth. destruct (Nat.eqb_spec i k) as [<-|]; cbn [andb]; [|reflexivity].
      destruct (_ <? _); [|reflexivity]. rewrite Ei. split; intro E; [injection E as ->; discriminate|discriminate]. }
    destruct j; try exact Z; apply D; reflexivity.
  - destruct (nth_error p (S i)) as [[]|] eqn:Es; try exact Z; (eapply Hhd; [reflexivity|reflexivity|split; reflexivity|intros n0 E0; try discriminate E0]).
    injection E0 as <-. eapply Hnt. apply in_nth. exists i. rewrite upd_other by lia. apply upd_same. eapply nth_lt. exact Ei.
Qed.
Theorem optimize_equi : forall p, any1 p -> notest (optimize p) -> equi (step p) (step (optimize p)).
Proof.
  intros p Ha. unfold optimize. set (lbl := lbl_index p).
  assert (G : forall l q, equi (step p) (step q) -> any1 q -> (forall x, lbl_index q x = lbl x) -> notest (fold_left (opt_step lbl) l q) ->
    equi (step p) (step (fold_left (opt_step lbl) l q))).
  { induction l as [|i l IH]; intros q H1 H2 H3 H4; [exact H1|]. cbn [fold_left] in *.
    assert (Eq : opt_step lbl q i = opt_step (lbl_index q) q i).
    { unfold opt_step. destruct (nth_error q i) as [[]|]; try reflexivity. rewrite H3. reflexivity. }
    assert (H5 : notest (opt_step lbl q i)) by (intros n x Hx; eapply H4; apply fold_test_keep; exact Hx).
    rewrite Eq in *. destruct (opt_step_ok q i H2 H5) as (O1 & O3). apply IH.
    - eapply equi_trans; eassumption.
    - rewrite <- Eq. apply opt_step_any1; [exact H2|rewrite Eq; exact H5].
    - intro x. rewrite O3. apply H3.
    - exact H4. }
  intro Hn. apply G; [apply run_inv_refl; exact Ha|exact Ha|reflexivity|exact Hn].
Qed.
Lemma optimize_any1 : forall p, any1 p -> notest (optimize p) -> any1 (optimize p).
Proof. intros p Ha Hn x Hx. destruct x; try exact I; [apply fold_any_in in Hx; exact (Ha _ Hx)|exact (Hn _ _ Hx)]. Qed.
Lemma notest_one : forall p, notest p -> (forall n, In (IAny n) p -> n = x01) -> notest (optimize p).
Proof. intros p H1 H2 n l H. apply fold_test_in in H. destruct H; eauto. Qed.
End Opt.
