(** The machine with slices: without a table, and with a tree table whose entries have at most two
    captures. *)
From Coq Require Import ZArith Permutation.
From Verif Require Import Base Model_Charset Model_Isa Model_Capture Model_Input Spec_Input Model_Code Model_Pattern Spec_Peg Spec_Scope Spec_Run Proof_Eval Proof_Capture Proof_Codegen Proof_Machine Proof_Frag Proof_Compile Proof_Emit Proof_Main Model_Interval Spec_Interval Proof_Interval4 Proof_IntervalMap Model_Table Spec_Memo Proof_Memo Proof_Memo2 Proof_Memo3 Model_VM Model_Heap Spec_Heap Proof_Heap Proof_Heap2.
Local Open Scope nat_scope.
Arguments Nat.max : simpl never.

(** ** What a user sees *)
Lemma view_same : forall F h h' n, agree F h h' -> (forall c v, crep F h c v -> view n h' c = view n h c).
Proof.
  intros F h h'. induction n as [|n IH]; intros A c v H; [reflexivity|]. destruct H as [d id st ln s cs E L D H]. cbn [view].
  rewrite (cells_agree F h h' s A E). f_equal. clear D L E. induction H as [|c v l l' Hc Hl IHl]; [reflexivity|]. cbn [map all_some].
  rewrite (IH A c v Hc), IHl. reflexivity.
Qed.
Lemma out_sees : forall F h o o', outR F h o o' -> same_outcome h o o'.
Proof.
  intros F h [b p c e] [b' p' c' e'] (-> & -> & -> & H). split; [reflexivity|]. split; [reflexivity|]. split; [reflexivity|].
  destruct c as [[d id st ln s]|], c' as [[d' id' st' ln' cs]|]; try exact H. destruct H as (-> & -> & -> & -> & [_ H]).
  destruct (creps_view _ _ _ _ H) as [n Hn]. exists (S n). cbn [view]. rewrite Hn. reflexivity.
Qed.
(** the tree of an outcome only uses frozen arrays once the slice of its children is frozen *)
Lemma view_kept : forall F h h' o o' c n, outR F h o o' -> ho_capt o = Some c -> agree (freeze F (match c with HCap _ _ _ _ s => s end)) h h' -> view n h' c = view n h c.
Proof.
  intros F h h' [b p c0 e] [b' p' c' e'] c n (_ & _ & _ & H) E A. cbn in E. subst c0. destruct c as [d id st ln s], c' as [[d' id' st' ln' cs]|]; [|destruct H].
  destruct H as (_ & _ & _ & _ & [L H]). destruct n as [|n]; [reflexivity|]. cbn [view]. rewrite (cells_agree _ h h' s A (freeze_self F s)). f_equal.
  clear L. induction H as [|x v l l' Hc Hl IHl]; [reflexivity|]. cbn [map all_some]. rewrite (view_same _ h h' n A x v Hc), IHl. reflexivity.
Qed.
Lemma inv_none : forall F h L, inv F h L -> inv F h [].
Proof. intros F h L (B & _ & _). split; [exact B|]. split; constructor. Qed.
Lemma hrun_det : forall T CS (step : hstate T CS -> hres T CS) f st y f' z, hrun step f st = Some y -> hrun step f' st = Some z -> y = z.
Proof.
  intros T CS step. induction f as [|f IH]; intros st y f' z H H'; [discriminate H|]. destruct f' as [|f']; [discriminate H'|]. cbn [hrun] in *.
  destruct (step st); try congruence. eapply IH; eassumption.
Qed.

(** ** No table *)
Section None.
Variable grow : policy.
Variable bufsz : nat.
Variable CS : Type.
Variable check : nat -> CS -> list byte -> list byte -> nat -> Z -> Z -> CS * option nat.
Variable intrvl : option (nat * nat).
Definition all_old (h : heap) : frozen := fun a => a <? List.length h.
Lemma none_follow : forall c f s h cs, 
  runR unit unit CS false (fun _ _ _ _ => True) (all_old h) h (hvm_exec grow bufsz hnone_table check intrvl f c s h tt cs) (vm_exec bufsz none_table check intrvl f c s tt cs).
Proof.
  intros c f s h cs. unfold hvm_exec, vm_exec. change h with (h_heap (hinit_state bufsz intrvl s h tt cs)) at 2.
  apply (run_follow grow bufsz unit unit CS hnone_table none_table check intrvl false) with (okt := fun _ => true); try (intros; exact Logic.I); try discriminate; try reflexivity.
  - intros. split; [|exact Logic.I]. exact Logic.I.
  - constructor; try reflexivity; try (exact Logic.I).
    + constructor.
    + apply swf_nil.
    + unfold slices. cbn. apply inv_dead; [|cbn; lia|left; reflexivity]. split; [|split; constructor]. intros a H. apply Nat.ltb_lt. exact H.
  - destruct (run _ _ _) as [[o st|]|]; try reflexivity. intros ?. reflexivity.
Qed.
Lemma none_same : forall c f s h cs,
  match hvm_exec grow bufsz hnone_table check intrvl f c s h tt cs, vm_exec bufsz none_table check intrvl f c s tt cs with
  | None, None => True
  | Some HRCrash, Some RCrash => True
  | Some (HROk o hs), Some (ROk o' st) => same_outcome (h_heap hs) o o' /\ h_cs hs = m_cs st /\ forall a, a < List.length h -> arr (h_heap hs) a = arr h a
  | _, _ => False
  end.
Proof.
  intros c f s h cs. pose proof (none_follow c f s h cs) as H. unfold runR in H.
  destruct (hvm_exec _ _ _ _ _ _ _ _ _ _ _) as [[o hs|]|], (vm_exec _ _ _ _ _ _ _ _ _) as [[o' st|]|]; try exact H.
  destruct H as (F' & HR0 & (_ & A) & O). split; [exact (out_sees _ _ _ _ O)|]. split; [exact (R_cs _ _ _ _ _ _ _ _ HR0)|].
  intros a L. apply A. apply Nat.ltb_lt. exact L.
Qed.
End None.

(** ** A tree table that notes whether an entry with more than two captures was stored *)
Definition wtable : Type := (ttable * bool)%type.
Definition wt_ops (threshold : Z) : table_ops wtable :=
  TableOps wtable (fun t id pos => let (e, t') := tt_get (fst t) id pos in (e, (t', snd t)))
    (fun t id pos l x c cs => (tt_put threshold (fst t) id pos l x c cs, snd t && (List.length (flat cs) <=? 2)))
    (fun t a b n => (tt_edit (fst t) a b n, snd t)).

Definition RTT (F : frozen) (h : heap) (th : httable) (tv : wtable) : Prop := exists tr t,
  calm tr /\ it_run tr = Some t /\ th = itmap fst t /\ fst tv = Some (itmap snd t) /\
  forall id pos hi he e, In (id, pos, hi, (he, e)) (cref_run tr) ->
    he_len he = e_len e /\ he_count he = e_count e /\ pos = Z.of_nat (e_at e) /\ swf F h (he_capt he) (e_capt e) /\ settled F h (he_capt he).

Lemma RTT_new : forall F h, RTT F h htt_new (tt_new, true).
Proof. intros F h. exists [], it_empty. split; [split; [constructor|left; constructor]|]. repeat (split; [reflexivity|]). intros id pos hi he e []. Qed.
Lemma RTT_more : forall F F' h h' th tv, RTT F h th tv -> more F F' -> agree F h h' -> RTT F' h' th tv.
Proof.
  intros F F' h h' th tv (tr & t & C & R & E1 & E2 & H) M A. exists tr, t. repeat (split; [assumption|]). intros id pos hi he e Hin.
  destruct (H _ _ _ _ _ Hin) as (H1 & H2 & H3 & H4 & H5). repeat (split; [assumption|]).
  assert (K : sl_len (he_capt he) = 0 \/ arr h' (sl_arr (he_capt he)) = arr h (sl_arr (he_capt he))) by (destruct H5 as [H5|[H5 _]]; [left; exact H5|right; apply A; exact H5]).
  split; [eapply swf_more; [eapply swf_same; eassumption|exact M]|].
  destruct H5 as [H5|[H5 H6]]; [left; exact H5|right]. split; [apply M; exact H5|]. unfold full in *. rewrite (A _ H5). exact H6.
Qed.
Lemma cap_shift_id : forall f c, (forall st, f st = st) -> cap_shift f c = c.
Proof.
  intros f c H. induction c using capture_ind'. cbn [cap_shift]. rewrite H. f_equal. induction H0; cbn [map]; [reflexivity|]. rewrite H0, IHForall. reflexivity.
Qed.
Lemma moved_here : forall e, moved_capt (e_at e) e = e_capt e.
Proof.
  intro e. unfold moved_capt. rewrite <- (map_id (e_capt e)) at 2. apply map_ext. intro c. apply cap_shift_id. intro st. lia.
Qed.
Lemma RTT_get : forall threshold F h th tv id pos, RTT F h th tv ->
  entR F h (fst (ht_get (htree_table threshold) th id pos)) (fst (t_get (wt_ops threshold) tv id pos)) /\
  RTT F h (snd (ht_get (htree_table threshold) th id pos)) (snd (t_get (wt_ops threshold) tv id pos)).
Proof.
  intros threshold F h th [tv b] id pos (tr & t & C & R & -> & E2 & H). cbn [fst] in E2. subst tv. cbn [htree_table wt_ops ht_get t_get htt_get tt_get fst snd].
  unfold htt_get. rewrite !it_find_map. destruct (it_find t id (Z.of_nat pos)) as [t1 v] eqn:Ef. cbn [fst snd]. split.
  - destruct v as [[he e]|]; [|exact Logic.I]. cbn [option_map fst snd].
    destruct (found _ tr t id (Z.of_nat pos) (he, e) C R) as (hi & Hh); [rewrite Ef; reflexivity|].
    destruct (H _ _ _ _ _ Hh) as (H1 & H2 & H3 & H4 & H5). apply Nat2Z.inj in H3. subst pos. rewrite moved_here. cbn [entR]. auto.
  - exists (tr ++ [OFind id (Z.of_nat pos)]), t1. split; [apply calm_keep; [exact C|exact Logic.I|intros []]|].
    split; [rewrite it_run_snoc, R; cbn [it_step]; rewrite Ef; reflexivity|]. split; [reflexivity|]. split; [reflexivity|]. rewrite cref_snoc. exact H.
Qed.
Lemma RTT_put : forall threshold F h th tv id pos l x c s cs, RTT F h th tv -> 0 < x -> swf F h s cs -> (true = true -> settled F h s) ->
  RTT F h (ht_put (htree_table threshold) th id pos l x c s) (t_put (wt_ops threshold) tv id pos l x c cs).
Proof.
  intros threshold F h th [tv b] id pos l x c s cs (tr & t & C & R & -> & E2 & H) Hx W S. specialize (S eq_refl). cbn [fst] in E2. subst tv.
  cbn [htree_table wt_ops ht_put t_put tt_put fst snd]. unfold htt_put. destruct (_ || _).
  - exists tr, t. repeat (split; [assumption || reflexivity|]). exact H.
  - set (x' := Nat.max x _).
    change (HEntry l x' c s pos) with (fst (HEntry l x' c s pos, Entry l x' c cs pos)). change (Entry l x' c cs pos) with (snd (HEntry l x' c s pos, Entry l x' c cs pos)) at 2.
    rewrite !it_add_map. cbn [fst].
    exists (tr ++ [OAdd id (Z.of_nat pos) (Z.of_nat (pos + x')) (HEntry l x' c s pos, Entry l x' c cs pos)]). eexists.
    split; [apply calm_keep; [exact C|cbn; lia|intros []]|].
    split; [rewrite it_run_snoc, R; reflexivity|]. split; [reflexivity|]. split; [reflexivity|]. rewrite cref_snoc. cbn [cref_step].
    intros id' pos' hi he e Hin. apply in_app_or in Hin. destruct Hin as [Hin|[Hin|[]]]; [eapply H; exact Hin|]. injection Hin as <- <- <- <- <-. auto.
Qed.

(** ** The table with its note, in a parse *)
Section Parse.
Variable bufsz : nat.
Hypothesis Hbuf : 0 < bufsz.
Variables (thr : nat) (p : pattern) (code : code) (M0 : Z) (Tl : list tent).
Hypothesis HRd : ready thr p code M0 Tl.
Variable threshold : Z.
Variable CS : Type.
Variable check : nat -> CS -> list byte -> list byte -> nat -> Z -> Z -> CS * option nat.
Variable s : list byte.
Hypothesis Hck : check_ok check s.
Hypothesis HA : memo_agree s check p.
Hypothesis HP : memo_pure s check p.
Hypothesis HF : memo_few s check 2 p.
Hypothesis HT : Tl = [] \/ memo_few s check 0 p.
Notation TI1 := (TI p M0 Tl CS check s false).
Definition TW (t : wtable) (F : nat) : Prop := TI1 (fst t) F /\ snd t = true.
Lemma few : forall n id E q i k w j ts w' x, memo_few s check n p -> MOK p M0 id E q -> eval s check k E q i w = (Some (RSucc j ts), w', x) -> List.length ts <= n.
Proof.
  intros n id E q i k w j ts w' x Hn [_ (E1 & q1 & M1 & S1)] He. destruct (proj2 (S1 s CS check i w (RSucc j ts) w' x)) as (n1 & He1); [eauto|].
  apply eval_sound in He1. exact (Hn _ _ _ M1 _ _ _ _ _ He1).
Qed.
Lemma few_reps : forall id E q i w j w' ts x, memo_few s check 0 p -> MOK p M0 id E q -> reps1 CS check s E q i w j w' ts x -> ts = [].
Proof.
  intros id E q i w j w' ts x H0 HM H. induction H as [n i w j w' ts x He|n i w j w1 ts x k w' us y He Hr IH].
  - pose proof (few _ _ _ _ _ _ _ _ _ _ _ H0 HM He). destruct ts; [reflexivity|cbn in *; lia].
  - pose proof (few _ _ _ _ _ _ _ _ _ _ _ H0 HM He). rewrite IH, app_nil_r. destruct ts; [reflexivity|cbn in *; lia].
Qed.
Lemma W_get : forall (t : wtable) id i, t_get (wt_ops threshold) t id i = (fst (t_get (tree_table threshold) (fst t) id i), (snd (t_get (tree_table threshold) (fst t) id i), snd t)).
Proof. intros [t b] id i. cbn [wt_ops tree_table t_get fst snd]. destruct (tt_get t id i). reflexivity. Qed.
Lemma wtree_some : forall t cs0 r errs cs', TW t 0 -> peg s check [] p 0 ([], cs0) r (errs, cs') ->
  exists f o st, vm_exec bufsz (wt_ops threshold) check None f code s t cs0 = Some (ROk o st) /\
    agrees None r o /\ o_errs o = errs /\ m_cs st = cs' /\ exists F, TW (m_tbl st) F.
Proof.
  intros t cs0 r errs cs' Ht Hr. destruct HRd as [R1 R2 R3 (c & l & lo & hi & HC & HL & HS & HE)].
  destruct (eval_complete _ _ _ _ _ _ _ _ _ Hr) as (n & x & Hn).
  pose proof (soft_agree p M0 CS check s HA) as SA. pose proof (soft_pure p M0 CS check s HP) as SP.
  edestruct (run_code bufsz Hbuf wtable (wt_ops threshold) CS check None s False (False_ind _) thr (MOK p M0) (tin Tl) Hck (XB false)) with (TI := TW) (t := t) (w := ([], cs0) : world CS)
    as (f & o & st & R & Q1 & Q2 & Q3 & Q4); [apply XB_mono|apply XB_down|apply XB_max|apply XB_le| | | | | | | |exact HC|exact HL|exact HS|apply any1_notest; apply (sh_any _ _ HS)|exact HE|exact Hn|reflexivity|exact Ht|].
  - intros t1 F F' [A B] L. split; [eapply TI_mono; eassumption|exact B].
  - intros t1 F id i [A B] L. rewrite W_get. split; [apply H_sync; assumption|exact B].
  - intros t1 F id E q i w e [A B] HM L He. rewrite W_get in He. eapply (H_get p M0 Tl CS check s false threshold); eassumption.
  - intros t1 F id E q i n0 w j ts w' x0 cs [A B] HM L He HX Hc. split; [eapply (H_put_ok p M0 Tl R2 CS check s false); eassumption|].
    cbn [wt_ops t_put snd]. rewrite B. cbn [andb Proof_Machine.stored]. rewrite pr_clip in Hc. cbn [clip] in Hc. rewrite Hc. apply Nat.leb_le.
    eapply few; eassumption.
  - intros t1 F id E q i n0 w w' x0 pos [A B] HM L He HX. split; [eapply (H_put_fail p M0 Tl R2 CS check s false); eassumption|].
    cbn [wt_ops t_put snd]. rewrite B. reflexivity.
  - intros t1 F id E q i w e [A B] HM L He. rewrite W_get in He. eapply (H_tget p M0 Tl CS check s false threshold); eassumption.
  - intros t1 F id E q i w j ts w' x0 cs cnt [A B] HM L He HX Hc. split; [eapply (H_tput p M0 Tl R1 R2 R3 CS check s false); eassumption|].
    cbn [wt_ops t_put snd]. rewrite B. cbn [andb Proof_Machine.stored]. rewrite pr_clip in Hc. cbn [clip] in Hc. rewrite Hc. apply Nat.leb_le.
    destruct HT as [->|H0]; [destruct HM|]. destruct (R3 _ _ _ HM) as (mid & HM0). rewrite (few_reps _ _ _ _ _ _ _ _ _ H0 HM0 He). cbn. lia.
  - exists f, o, st. cbn [snd fst] in *. split; [exact R|]. split; [exact Q1|]. split; [exact Q2|]. split; [exact Q3|]. eexists. exact Q4.
Qed.

(** ** Heap and table between parses *)
Variable grow : policy.
Hypothesis G2 : tight2 grow.
Notation hexec f h t cs := (hvm_exec grow bufsz (htree_table threshold) check None f code s h t cs).
Definition sound (F : frozen) (h : heap) (th : httable) : Prop := inv F h [] /\ exists t, RTT F h th (t, true) /\ TI1 t 0.
Lemma sound_new : forall h, sound (fun _ => false) h htt_new.
Proof.
  intro h. split; [split; [intros a X; discriminate X|split; constructor]|]. exists tt_new. split; [apply RTT_new|apply TI_new].
Qed.
Lemma heap_some : forall F h th cs0 r errs cs', sound F h th -> peg s check [] p 0 ([], cs0) r (errs, cs') ->
  exists f o hs, hexec f h th cs0 = Some (HROk o hs) /\ hagrees r (h_heap hs) o /\ ho_errs o = errs /\ h_cs hs = cs' /\
    exists F', more F F' /\ agree F h (h_heap hs) /\ sound F' (h_heap hs) (h_tbl hs) /\
      forall c h' n, ho_capt o = Some c -> agree F' (h_heap hs) h' -> view n h' c = view n (h_heap hs) c.
Proof.
  intros F h th cs0 r errs cs' (I & t & RT0 & T0) Hr.
  destruct (wtree_some (t, true) cs0 r errs cs' (conj T0 eq_refl) Hr) as (f & o & st & E & Q1 & Q2 & Q3 & F1 & [T1 T2]).
  assert (K : runR httable wtable CS true RTT F h (hexec f h th cs0) (vm_exec bufsz (wt_ops threshold) check None f code s (t, true) cs0)).
  { unfold hvm_exec, vm_exec. change h with (h_heap (hinit_state bufsz None s h th cs0)) at 1.
    apply (run_follow grow bufsz httable wtable CS (htree_table threshold) (wt_ops threshold) check None true) with (okt := fun t => snd t).
    - intros _. exact G2.
    - apply RTT_more.
    - intros. apply RTT_get. assumption.
    - intros. apply RTT_put; assumption.
    - intros tv id pos l x c cs _ H. cbn [wt_ops t_put snd] in H. apply Bool.andb_true_iff in H. destruct H as [H1 H2]. apply Nat.leb_le in H2. auto.
    - intros tv id pos H. rewrite W_get in H. exact H.
    - constructor; try reflexivity; [constructor|apply swf_nil| |exact RT0]. unfold slices. cbn. apply inv_dead; [exact I|cbn; lia|left; reflexivity].
    - change (run _ _ _) with (vm_exec bufsz (wt_ops threshold) check None f code s (t, true) cs0). rewrite E. intros _. exact T2. }
  rewrite E in K. unfold runR in K. destruct (hexec f h th cs0) as [[o1 hs|]|] eqn:Eh; try contradiction. destruct K as (F' & H' & (M & A) & O).
  exists f, o1, hs. split; [exact Eh|]. pose proof (out_sees _ _ _ _ O) as OS. destruct o1 as [b1 p1 c1 e1], o as [b2 p2 c2 e2]. destruct OS as (-> & -> & -> & OS).
  split; [|split; [exact Q2|split; [rewrite (R_cs _ _ _ _ _ _ _ _ H'); exact Q3|]]].
  - cbn [hagrees]. destruct r as [|j ts|j]; cbn [agrees o_ok o_pos o_capt] in Q1.
    + destruct Q1 as (-> & ->). destruct c1; [destruct OS|auto].
    + destruct Q1 as (-> & -> & v & -> & Q1). split; [reflexivity|]. split; [reflexivity|]. destruct c1 as [c1|]; [|destruct OS]. exists c1, v. auto.
    + exact Q1.
  - assert (X : exists s0, (forall c, c1 = Some c -> match c with HCap _ _ _ _ s => s end = s0) /\ inv (freeze F' s0) (h_heap hs) []).
    { pose proof (R_inv _ _ _ _ _ _ _ _ H') as I'.
      destruct c1 as [[d id sa sl ch]|]; [|exists nil_slice; split; [discriminate|]].
      - exists ch. split; [intros c [= <-]; reflexivity|]. split; [|split; constructor]. intros a Ha. unfold freeze in Ha. apply Bool.orb_true_iff in Ha.
        destruct Ha as [Ha|Ha]; [apply I'; exact Ha|]. apply Bool.andb_true_iff in Ha. destruct Ha as [Z1 Z2]. apply Nat.eqb_eq in Z2. subst a.
        apply Bool.negb_true_iff, Nat.eqb_neq in Z1. destruct O as (_ & _ & _ & O). destruct c2 as [[d' id' sa' sl' cs2]|]; [|destruct O].
        destruct O as (_ & _ & _ & _ & [O _]). apply arr_some; [lia|exact O].
      - split; [|split; constructor]. intros a Ha. unfold freeze in Ha. cbn in Ha. rewrite Bool.orb_false_r in Ha. apply I'. exact Ha. }
    destruct X as (s0 & X1 & X2). exists (freeze F' s0). split; [intros a Ha; apply more_freeze; apply M; exact Ha|]. split; [exact A|]. split.
    + split; [exact X2|]. exists (fst (m_tbl st)). split; [|eapply TS_any; exact T1]. pose proof (R_tbl _ _ _ _ _ _ _ _ H') as RT1.
      apply (RTT_more F' (freeze F' s0) (h_heap hs) (h_heap hs)) in RT1; [|apply more_freeze|intros a _; reflexivity].
      destruct (m_tbl st) as [tv b]. cbn [fst snd] in *. subst b. exact RT1.
    + intros c h' n Ec Ag. apply (view_kept F' (h_heap hs) h' _ _ c n O Ec). cbn in Ec. rewrite (X1 c Ec). exact Ag.
Qed.
Lemma heap_runs : forall a b, hafter_runs grow bufsz check threshold p code s a b -> forall F, sound F (fst a) (snd a) ->
  exists F', more F F' /\ agree F (fst a) (fst b) /\ sound F' (fst b) (snd b).
Proof.
  intros a b H. induction H as [t|h t f cs r w' o st t' Hr Hx H IH]; intros F S; [exists F; split; [intros a X; exact X|split; [intros a X; reflexivity|exact S]]|].
  destruct w' as [errs cs']. cbn [fst snd] in *. destruct (heap_some F h t cs r errs cs' S Hr) as (f' & o' & hs & E & _ & _ & _ & F1 & M1 & A1 & S1 & _).
  pose proof (hrun_det _ _ _ _ _ _ _ _ Hx E) as X. injection X as <- <-. destruct (IH F1 S1) as (F2 & M2 & A2 & S2).
  exists F2. split; [intros a X; apply M2, M1; exact X|]. split; [|exact S2]. intros a X. rewrite (A2 a (M1 a X)). apply A1. exact X.
Qed.
End Parse.

Lemma plain_ready : forall thr p code, supported p -> compiled_plain thr p code -> exists M0, ready thr p code M0 [].
Proof.
  intros thr p code Hs (fuel & st0 & c & st1 & Hb & Hc & He & Hm).
  unfold compile in Hc. destruct (compile_f thr fuel p st0) as [c0 st1'| | |] eqn:E0; try discriminate. injection Hc as <- <-.
  assert (MS : forall id E q E' q', same_all E q E' q' -> MOK p (cs_memo st0) id E q -> MOK p (cs_memo st0) id E' q').
  { intros id E q E' q' H [H1 (E1 & q1 & H2 & H3)]. split; [exact H1|]. exists E1, q1. split; [exact H2|]. intros s CS check i w r w' x.
    rewrite (H3 s CS check i w r w' x). apply H. }
  assert (HP : pok False (MOK p (cs_memo st0)) [] p).
  { apply supported_pok_in; [exact Hs|]. intros id E q P. split; [eapply Hb; exact P|]. exists E, q. split; [exact P|]. intros s CS check i w r w' x. tauto. }
  destruct (emit False thr (MOK p (cs_memo st0)) MS fuel [] p st0 c0 st1' E0 HP) as (Tl & [F1 F2 F3 F4 F5] & HC & HL & _ & HS).
  assert (Tl = []) as ->. { destruct Tl as [|t l]; [reflexivity|]. specialize (F4 t (or_introl eq_refl)). lia. }
  exists (cs_memo st0). split; [exact F3|intros t []|exact F5|]. do 4 eexists. eauto.
Qed.
Lemma memo_few_mono : forall CS check s p n m, memo_few s (CS:=CS) check n p -> n <= m -> memo_few s check m p.
Proof. intros CS check s p n m H L id E q M i w j ts w' P. specialize (H id E q M i w j ts w' P). lia. Qed.
Lemma shareable_ready : forall CS thr check s p code, supported p -> shareable (CS:=CS) thr check s p code ->
  exists M0 Tl, ready thr p code M0 Tl /\ memo_few s check 2 p /\ (Tl = [] \/ memo_few s check 0 p).
Proof.
  intros CS thr check s p code Hs [[Hc Hf]|[Hc Hf]].
  - destruct (plain_ready _ _ _ Hs Hc) as (M0 & R). exists M0, []. auto.
  - destruct (compiled_ready _ _ _ Hs Hc) as (M0 & Tl & R). exists M0, Tl. split; [exact R|]. split; [eapply memo_few_mono; [exact Hf|lia]|right; exact Hf].
Qed.

(** ** The bound read off a pattern *)
Lemma bound_ok : forall s CS check E p i w r w', peg s (CS:=CS) check E p i w r w' ->
  match r with RSucc _ ts => forall k, capt_bound p = Some k -> List.length ts <= k | _ => True end.
Proof.
  intros s CS check E p i w r w' H. induction H; try exact I; try (destruct r; exact I || (exfalso; eapply H0; reflexivity) || (exfalso; eapply H1; reflexivity)); try (intros k Hk; cbn [List.length]; lia).
  all: try (destruct r; try exact I; intros k0 Hk0; apply IHpeg; exact Hk0).
  all: try (intros k0 Hk0; apply IHpeg; exact Hk0).
  - (* sequence *) intros k0 Hk. cbn [capt_bound] in Hk. destruct (capt_bound p); [|discriminate Hk]. destruct (capt_bound q); [|discriminate Hk].
    injection Hk as <-. rewrite app_length. specialize (IHpeg1 _ eq_refl). specialize (IHpeg2 _ eq_refl). lia.
  - (* choice *) destruct r; try exact I. intros k0 Hk. cbn [capt_bound] in Hk. destruct (capt_bound p); [|discriminate Hk]. destruct (capt_bound q); [|discriminate Hk].
    injection Hk as <-. specialize (IHpeg _ eq_refl). lia.
  - destruct r; try exact I. intros k0 Hk. cbn [capt_bound] in Hk. destruct (capt_bound p); [|discriminate Hk]. destruct (capt_bound q); [|discriminate Hk].
    injection Hk as <-. specialize (IHpeg2 _ eq_refl). lia.
  - (* repetition *) intros k0 Hk. pose proof (IHpeg2 _ Hk) as L2. cbn [capt_bound] in Hk. destruct (capt_bound p) as [[|b]|]; try discriminate Hk.
    injection Hk as <-. rewrite app_length. specialize (IHpeg1 _ eq_refl). lia.
  - destruct r; try exact I. intros k0 Hk. cbn [capt_bound] in *. destruct (capt_bound p) as [[|b]|]; try discriminate Hk. injection Hk as <-. specialize (IHpeg _ eq_refl). exact IHpeg.
  - destruct r; try exact I. intros k0 Hk. cbn [capt_bound] in *. rewrite Hk in IHpeg. specialize (IHpeg _ eq_refl). lia.
  - (* capture *) intros k0 Hk. cbn in *. injection Hk as <-. lia.
  - destruct r; try exact I. exact IHpeg2.
  - destruct r; try exact I. intros k0 Hk. discriminate Hk.
  - destruct r; try exact I. intros k0 Hk. discriminate Hk.
Qed.
Lemma bound_few : forall CS check s p n, (forall id E q, memoized p id E q -> exists k, capt_bound q = Some k /\ k <= n) -> memo_few s (CS:=CS) check n p.
Proof.
  intros CS check s p n H id E q M i w j ts w' P. destruct (H id E q M) as (k & Hk & L). pose proof (bound_ok _ _ _ _ _ _ _ _ _ P k Hk). lia.
Qed.
