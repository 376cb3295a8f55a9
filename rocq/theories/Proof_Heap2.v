(** The machine with slices follows the machine with lists. *)
From Coq Require Import ZArith Permutation.
From Verif Require Import Base Model_Charset Model_Isa Model_Capture Model_Input Model_Code Model_Interval Model_Table Model_VM Model_Heap Spec_Peg Proof_Capture Proof_Heap.
Local Open Scope nat_scope.

Lemma Forall2_cons_iff : forall A B (R : A -> B -> Prop) x y l l', Forall2 R (x :: l) (y :: l') <-> R x y /\ Forall2 R l l'.
Proof. intros. split; [intro H; inversion H; auto|intros [H1 H2]; constructor; assumption]. Qed.
Section Follow.
Variable grow : policy.
Variable bufsz : nat.
Variables HT T CS : Type.
Variable hops : htable_ops HT.
Variable ops : table_ops T.
Variable check : nat -> CS -> list byte -> list byte -> nat -> Z -> Z -> CS * option nat.
Variable intrvl : option (nat * nat).
(** [strict]: the table keeps the slices it is given *)
Variable strict : bool.
Hypothesis grow2 : strict = true -> grow 1 2 <= 2.
Variable RT : frozen -> heap -> HT -> T -> Prop.
Hypothesis RT_more : forall F F' h h' th tv, RT F h th tv -> more F F' -> agree F h h' -> RT F' h' th tv.
Definition settled (F : frozen) (h : heap) (s : slice) : Prop := sl_len s = 0 \/ (F (sl_arr s) = true /\ full h s).
Definition entR (F : frozen) (h : heap) (he : option hmentry) (e : option mentry) : Prop :=
  match he, e with
  | None, None => True
  | Some (HMEntry l c s), Some (MEntry l' c' cs) => l = l' /\ c = c' /\ swf F h s cs /\ settled F h s
  | _, _ => False
  end.
Hypothesis RT_get : forall F h th tv id pos, RT F h th tv ->
  entR F h (fst (ht_get hops th id pos)) (fst (t_get ops tv id pos)) /\ RT F h (snd (ht_get hops th id pos)) (snd (t_get ops tv id pos)).
Hypothesis RT_put : forall F h th tv id pos l x c s cs, RT F h th tv -> 0 < x -> swf F h s cs -> (strict = true -> settled F h s) ->
  RT F h (ht_put hops th id pos l x c s) (t_put ops tv id pos l x c cs).
(** [okt]: so far no more than two captures have been stored in an entry *)
Variable okt : T -> bool.
Hypothesis okt_put : forall tv id pos l x c cs, strict = true -> okt (t_put ops tv id pos l x c cs) = true -> okt tv = true /\ List.length (flat cs) <= 2.
Hypothesis okt_get : forall tv id pos, okt (snd (t_get ops tv id pos)) = true -> okt tv = true.

Notation hst := (hstate HT CS).
Notation mst := (mstate T CS).
Definition slices (st : hst) : list slice := h_base st :: map hs_capt (h_stk st).
(** a slice of a stack entry with at most two captures has no spare capacity *)
Definition snug (h : heap) (s : slice) : Prop := strict = true -> sl_len s <= 2 -> sl_len s = 0 \/ full h s.
Definition eR (F : frozen) (h : heap) (he : hsentry) (e : sentry) : Prop :=
  hs_kind he = s_kind e /\ swf F h (hs_capt he) (s_capt e) /\ snug h (hs_capt he).
Record HR (F : frozen) (hs : hst) (st : mst) : Prop := {
  R_ip : h_ip hs = m_ip st; R_src : h_src hs = m_src st; R_errs : h_errs hs = m_errs st; R_cs : h_cs hs = m_cs st; R_range : h_range hs = m_range st;
  R_stk : Forall2 (eR F (h_heap hs)) (h_stk hs) (m_stk st);
  R_base : swf F (h_heap hs) (h_base hs) (m_base st);
  R_inv : inv F (h_heap hs) (slices hs);
  R_tbl : RT F (h_heap hs) (h_tbl hs) (m_tbl st) }.
(** how the heap may change *)
Definition ext (F : frozen) (h : heap) (F' : frozen) (h' : heap) : Prop := more F F' /\ agree F h h'.
Lemma ext_refl : forall F h, ext F h F h. Proof. split; intros a H; auto. Qed.
Lemma ext_trans : forall F h F' h' F'' h'', ext F h F' h' -> ext F' h' F'' h'' -> ext F h F'' h''.
Proof. intros F h F' h' F'' h'' [A1 A2] [B1 B2]. split; intros a H; [auto|]. rewrite (B2 a (A1 a H)). apply A2. exact H. Qed.

Lemma kept_full : forall h h' s, kept h h' s -> sl_len s = 0 \/ full h s -> sl_len s = 0 \/ full h' s.
Proof. intros h h' s [K|K] H; [auto|]. destruct H as [H|H]; [auto|right]. unfold full in *. rewrite K. exact H. Qed.
Lemma kept_snug : forall h h' s, kept h h' s -> snug h s -> snug h' s.
Proof. intros h h' s K H S L. eapply kept_full; [exact K|auto]. Qed.
Lemma kept_swf : forall F h h' s cs, agree F h h' -> kept h h' s -> swf F h s cs -> swf F h' s cs.
Proof. intros F h h' s cs A K H. eapply swf_same; [exact H|exact A|exact K]. Qed.
Lemma kept_stk : forall F h h' l l', agree F h h' -> Forall (kept h h') (map hs_capt l) -> Forall2 (eR F h) l l' -> Forall2 (eR F h') l l'.
Proof.
  intros F h h' l l' A K H. induction H; [constructor|]. cbn [map] in K. inversion K; subst. destruct H as (E1 & E2 & E3). constructor; [|apply IHForall2; assumption].
  split; [exact E1|]. split; [eapply kept_swf; eassumption|eapply kept_snug; eassumption].
Qed.
Lemma more_stk : forall F F' h l l', more F F' -> Forall2 (eR F h) l l' -> Forall2 (eR F' h) l l'.
Proof. intros F F' h l l' M H. induction H; constructor; [|assumption]. destruct H as (E1 & E2 & E3). split; [exact E1|]. split; [eapply swf_more; eassumption|exact E3]. Qed.
Lemma HR_freeze : forall F hs st F', HR F hs st -> more F F' -> inv F' (h_heap hs) (slices hs) -> HR F' hs st.
Proof.
  intros F hs st F' H M I. destruct H. constructor; try assumption; [eapply more_stk; eassumption|eapply swf_more; eassumption|].
  eapply RT_more; [eassumption|exact M|intros a _; reflexivity].
Qed.

(** a slice [t] next to the state, disjoint from the slices of the stack *)
Definition beside (F : frozen) (hs : hst) (t : slice) (ds : list capture) : Prop :=
  inv F (h_heap hs) (t :: slices hs) /\ swf F (h_heap hs) t ds /\ snug (h_heap hs) t.
(** a slice that may be one of the stack's *)
Definition known (F : frozen) (hs : hst) (t : slice) (ds : list capture) : Prop :=
  (inv F (h_heap hs) (t :: slices hs) \/ In t (slices hs)) /\ swf F (h_heap hs) t ds /\ snug (h_heap hs) t.

Lemma swf_ne : forall F h s cs, swf F h s cs -> cs = [] <-> sl_len s = 0.
Proof. intros F h s cs H. apply swf_len in H. destruct cs; cbn in H; split; intro X; try reflexivity; try discriminate; lia. Qed.

Lemma hadd_ok : forall F hs st t ds, HR F hs st -> beside F hs t ds ->
  HR F (hadd grow t hs) (add ds st) /\ ext F (h_heap hs) F (h_heap (hadd grow t hs)) /\ known F (hadd grow t hs) t ds.
Proof.
  intros F hs st t ds H (I & Ht & Sn). destruct H as [H1 H2 H3 H4 H5 Hk Hb Hi Hr]. unfold hadd, add, add_capt. unfold slices in *.
  destruct (h_stk hs) as [|he stk] eqn:Es.
  - destruct (m_stk st) as [|e stk'] eqn:Em; [|inversion Hk]. cbn [map] in *.
    destruct (append grow (h_heap hs) (h_base hs) t) as [h' b'] eqn:E.
    apply (append_ok grow F (h_heap hs) (h_base hs) t [] (m_base st) ds) in E; [|eapply inv_perm; [exact I|apply perm_swap]|exact Hb|exact Ht].
    destruct E as (A & I' & W & K & _). inversion K as [|? ? K2 _]; subst. split; [|split].
    + constructor; cbn; auto; [eapply inv_perm in I'; [|apply perm_swap]; eapply inv_tail; exact I'|].
      eapply RT_more; [exact Hr|intros a X; exact X|exact A].
    + split; [intros a X; exact X|exact A].
    + split; [|split; [eapply kept_swf; eassumption|eapply kept_snug; eassumption]]. left. cbn. eapply inv_perm; [exact I'|apply perm_swap].
  - destruct (m_stk st) as [|e stk'] eqn:Em; [inversion Hk|]. apply Forall2_cons_iff in Hk. destruct Hk as [(K1a & K1b & K1c) K3]. cbn [map] in *.
    destruct (Nat.eqb_spec (sl_len t) 0) as [Z|Z].
    + (* nothing to add *)
      rewrite (swf_zero _ _ _ _ Ht Z), app_nil_r. split; [|split; [apply ext_refl|]].
      * constructor; cbn; auto; rewrite ?Es; [|unfold slices; rewrite Es; cbn [map]; eapply inv_tail; exact I].
        constructor; [split; [exact K1a|split; assumption]|exact K3].
      * split; [left; unfold slices; rewrite Es; exact I|]. split; [apply swf_zero with (1 := Ht) in Z; subst ds; exact Ht|exact Sn].
    + destruct (Nat.eqb_spec (sl_len (hs_capt he)) 0) as [Y|Y].
      * (* the entry takes the slice *)
        rewrite (swf_zero _ _ _ _ K1b Y). cbn [app]. split; [|split; [apply ext_refl|]].
        -- constructor; cbn; auto; [constructor; [split; [exact K1a|split; assumption]|exact K3]|].
           unfold slices. cbn [h_base h_stk hset_stk map hs_capt]. eapply inv_tail.
           eapply inv_perm; [exact I|]. eapply perm_trans; [|apply perm_swap]. eapply perm_trans; [apply perm_swap|]. 
           eapply perm_trans; [apply perm_skip; apply perm_swap|]. apply perm_skip. apply Permutation_refl.
        -- split; [right; cbn; auto|]. split; assumption.
      * destruct (append grow (h_heap hs) (hs_capt he) t) as [h' s'] eqn:E.
        apply (append_ok grow F (h_heap hs) (hs_capt he) t (h_base hs :: map hs_capt stk) (s_capt e) ds) in E; [|eapply inv_perm; [exact I|]|exact K1b|exact Ht].
        2:{ eapply perm_trans; [|apply perm_swap]. apply perm_skip. apply perm_swap. }
        destruct E as (A & I' & W & K & G). inversion K as [|? ? K4 K5]; subst. inversion K5 as [|? ? K6 K7]; subst. split; [|split].
        -- constructor; cbn; auto.
           ++ constructor; [|eapply kept_stk; eassumption]. split; [exact K1a|]. split; [exact W|]. intros S L. cbn [hs_capt] in *. pose proof (swf_len _ _ _ _ W) as Q. rewrite app_length in Q.
              rewrite (swf_len _ _ _ _ K1b), (swf_len _ _ _ _ Ht) in Q. right. apply G; try lia; [|auto]. destruct (K1c S ltac:(lia)) as [?|U]; [lia|]. unfold full in U. lia.
           ++ eapply kept_swf; eassumption.
           ++ unfold slices. cbn. eapply inv_tail. eapply inv_perm; [exact I'|]. eapply perm_trans; [apply perm_swap|]. apply perm_skip. apply perm_swap.
           ++ eapply RT_more; [exact Hr|intros a X; exact X|exact A].
        -- split; [intros a X; exact X|exact A].
        -- split; [left; cbn|split; [eapply kept_swf; eassumption|eapply kept_snug; eassumption]].
           unfold slices. cbn. eapply inv_perm; [exact I'|]. eapply perm_trans; [apply perm_swap|]. apply perm_skip. apply perm_swap.
Qed.

Lemma hadd1_ok : forall F hs st c v, HR F hs st -> crep F (h_heap hs) c v ->
  HR F (hadd1 grow c hs) (add [v] st) /\ ext F (h_heap hs) F (h_heap (hadd1 grow c hs)).
Proof.
  intros F hs st c v H C. unfold hadd1. destruct (alloc (h_heap hs) [c] 1) as [h' s'] eqn:E. pose proof H as [H1 H2 H3 H4 H5 Hk Hb Hi Hr].
  apply (alloc_ok F (h_heap hs) (slices hs) [c] [v] 1) in E; [|exact Hi|constructor; [exact C|constructor]|cbn; lia].
  destruct E as (A & I' & W & K & L1 & L2). unfold slices in K. inversion K as [|? ? K1 K2]; subst.
  assert (H' : HR F (hset_stk (h_stk hs) (h_base hs) h' hs) st).
  { constructor; cbn; auto; [eapply kept_stk; eassumption|eapply kept_swf; eassumption|eapply inv_tail; exact I'|].
    eapply RT_more; [exact Hr|intros a X; exact X|exact A]. }
  assert (B' : beside F (hset_stk (h_stk hs) (h_base hs) h' hs) s' [v]).
  { split; [exact I'|]. split; [exact W|]. intros _ _. right. cbn. unfold full. cbn in L1. lia. }
  destruct (hadd_ok _ _ _ _ _ H' B') as (X1 & X2 & _). split; [exact X1|]. eapply ext_trans; [|exact X2]. split; [intros a X; exact X|exact A].
Qed.

(** pop *)
Lemma hpop_none : forall F hs st p, HR F hs st -> h_stk hs = [] -> hpop grow p hs = (None, hs) /\ pop p st = (None, st).
Proof. intros F hs st p H E. pose proof (R_stk _ _ _ H) as K. rewrite E in K. destruct (m_stk st) eqn:Em; [|inversion K]. unfold hpop, pop. rewrite E, Em. auto. Qed.
Lemma hpop_false : forall F hs st he stk, HR F hs st -> h_stk hs = he :: stk ->
  exists e stk', m_stk st = e :: stk' /\ hs_kind he = s_kind e /\
    hpop grow false hs = (Some he, hset_stk stk (h_base hs) (h_heap hs) hs) /\ pop false st = (Some e, set_stk stk' (m_base st) st) /\
    HR F (hset_stk stk (h_base hs) (h_heap hs) hs) (set_stk stk' (m_base st) st) /\
    beside F (hset_stk stk (h_base hs) (h_heap hs) hs) (hs_capt he) (s_capt e).
Proof.
  intros F hs st he stk H E. pose proof H as [H1 H2 H3 H4 H5 Hk Hb Hi Hr]. rewrite E in Hk. destruct (m_stk st) as [|e stk'] eqn:Em; [inversion Hk|].
  apply Forall2_cons_iff in Hk. destruct Hk as [(K1a & K1b & K1c) K3]. exists e, stk'. unfold hpop, pop. rewrite E, Em. split; [reflexivity|]. split; [exact K1a|]. split; [reflexivity|]. split; [reflexivity|].
  unfold slices in Hi. rewrite E in Hi. cbn [map] in Hi. eapply inv_perm in Hi; [|apply perm_swap]. split.
  - constructor; cbn; auto. eapply inv_tail. exact Hi.
  - split; [exact Hi|]. split; assumption.
Qed.
Lemma hpop_true : forall F hs st he stk, HR F hs st -> h_stk hs = he :: stk ->
  exists e stk' hs' st', m_stk st = e :: stk' /\ hs_kind he = s_kind e /\ hpop grow true hs = (Some he, hs') /\ pop true st = (Some e, st') /\
    HR F hs' st' /\ ext F (h_heap hs) F (h_heap hs') /\ known F hs' (hs_capt he) (s_capt e).
Proof.
  intros F hs st he stk H E. destruct (hpop_false F hs st he stk H E) as (e & stk' & M & K & P1 & P2 & H' & B').
  destruct (hadd_ok _ _ _ _ _ H' B') as (X1 & X2 & X3). exists e, stk', (hadd grow (hs_capt he) (hset_stk stk (h_base hs) (h_heap hs) hs)), (add (s_capt e) (set_stk stk' (m_base st) st)).
  split; [exact M|]. split; [exact K|]. unfold hpop, pop. rewrite E, M. split; [reflexivity|]. split; [reflexivity|]. split; [exact X1|]. split; [exact X2|exact X3].
Qed.
Lemma hpop_snd : forall F hs st, HR F hs st -> HR F (snd (hpop grow true hs)) (snd (pop true st)) /\ ext F (h_heap hs) F (h_heap (snd (hpop grow true hs))).
Proof.
  intros F hs st H. destruct (h_stk hs) as [|he stk] eqn:E.
  - destruct (hpop_none F hs st true H E) as [-> ->]. split; [exact H|apply ext_refl].
  - destruct (hpop_true F hs st he stk H E) as (e & stk' & hs' & st' & _ & _ & -> & -> & X1 & X2 & _). split; assumption.
Qed.

(** memoize *)
Lemma hmemo_ok : forall F hs st t ds id pos l c, HR F hs st -> known F hs t ds ->
  okt (m_tbl (memoize ops intrvl id pos l c ds st)) = true \/ strict = false ->
  exists F', HR F' (hmemoize hops intrvl id pos l c t hs) (memoize ops intrvl id pos l c ds st) /\ ext F (h_heap hs) F' (h_heap (hmemoize hops intrvl id pos l c t hs)).
Proof.
  intros F hs st t ds id pos l c H (K & W & Sn) O. unfold hmemoize, memoize in *. unfold hpos, mpos in *. rewrite (R_src _ _ _ H) in *.
  assert (X : forall t0 ds0, swf F (h_heap hs) t0 ds0 -> settled F (h_heap hs) t0 -> forall x, 0 < x ->
    HR F (hset_tbl (ht_put hops (h_tbl hs) id pos l x c t0) hs) (set_tbl (t_put ops (m_tbl st) id pos l x c ds0) st) /\
    ext F (h_heap hs) F (h_heap (hset_tbl (ht_put hops (h_tbl hs) id pos l x c t0) hs))).
  { intros t0 ds0 W0 S0 x Hx. split; [|apply ext_refl]. destruct H. constructor; cbn; auto. }
  destruct intrvl as [r|].
  - exists F. apply X; [apply swf_nil|left; reflexivity|lia].
  - destruct strict eqn:S.
    + destruct O as [O|O]; [|discriminate]. cbn [m_tbl set_tbl] in O. apply okt_put in O; [|reflexivity]. destruct O as [_ O].
      assert (L : sl_len t <= 2). { rewrite <- (swf_len _ _ _ _ W). destruct W as [_ W]. apply creps_flat in W. lia. }
      assert (U : sl_len t = 0 \/ full (h_heap hs) t) by (apply Sn; [exact S|exact L]).
      assert (I : inv (freeze F t) (h_heap hs) (slices hs)).
      { destruct K as [K|K]; [apply inv_freeze; exact K|]. apply in_split in K. destruct K as (l1 & l2 & K). pose proof (R_inv _ _ _ H) as I. rewrite K in I |- *.
        eapply inv_perm; [|apply Permutation_middle]. apply inv_freeze_full; [|exact U]. eapply inv_perm; [exact I|]. apply Permutation_sym, Permutation_middle. }
      exists (freeze F t). pose proof (HR_freeze F hs st (freeze F t) H (more_freeze F t) I) as H'. split; [|split; [apply more_freeze|intros a _; reflexivity]].
      destruct H'. constructor; cbn; auto. apply RT_put; [assumption|lia|eapply swf_more; [exact W|apply more_freeze]|]. intros _.
      destruct U as [U|U]; [left; exact U|]. destruct (freeze_self F t) as [Z|Z]; [left; exact Z|right; auto].
    + exists F. split; [|apply ext_refl]. destruct H. constructor; cbn; auto. apply RT_put; [assumption|lia|assumption|discriminate].
Qed.

(** ** The steps *)
Definition ok (st : mst) : Prop := strict = true -> okt (m_tbl st) = true.
Definition outR (F : frozen) (h : heap) (o : houtcome) (o' : outcome) : Prop :=
  match o, o' with
  | HOutcome b p c e, Outcome b' p' c' e' =>
      b = b' /\ p = p' /\ e = e' /\
      match c, c' with
      | None, None => True
      | Some (HCap d id st ln s), Some (Capture d' id' st' ln' cs) =>
          d = d' /\ id = id' /\ st = st' /\ ln = ln' /\ swf (freeze F s) h s cs
      | _, _ => False
      end
  end.
Definition resR (F : frozen) (h : heap) (r : hres HT CS) (r' : step_res T CS) : Prop :=
  match r, r' with
  | HNext hs, Next st => ok st -> exists F', HR F' hs st /\ ext F h F' (h_heap hs)
  | HDone o hs, Done o' st => ok st -> exists F', HR F' hs st /\ ext F h F' (h_heap hs) /\ outR F' (h_heap hs) o o'
  | HCrash, Crash => True
  | _, _ => False
  end.

Lemma HR_src : forall F hs st s, HR F hs st -> HR F (hset_src s hs) (set_src s st).
Proof. intros F hs st s H. destruct H. constructor; cbn; auto. Qed.
Lemma HR_ip : forall F hs st i, HR F hs st -> HR F (hset_ip i hs) (set_ip i st).
Proof. intros F hs st s H. destruct H. constructor; cbn; auto. Qed.
Lemma HR_errs : forall F hs st e, HR F hs st -> HR F (hset_errs e hs) (set_errs e st).
Proof. intros F hs st s H. destruct H. constructor; cbn; auto. Qed.
Lemma HR_cs : forall F hs st c, HR F hs st -> HR F (hset_cs c hs) (set_cs c st).
Proof. intros F hs st s H. destruct H. constructor; cbn; auto. Qed.
Lemma HR_range : forall F hs st r, HR F hs st -> HR F (hset_range r hs) (set_range r st).
Proof. intros F hs st s H. destruct H. constructor; cbn; auto. Qed.
Lemma HR_push : forall F hs st k, HR F hs st -> HR F (hpush k hs) (push k st).
Proof.
  intros F hs st k H. destruct H. constructor; cbn; auto.
  - constructor; [|assumption]. split; [reflexivity|]. cbn. split; [apply swf_nil|]. intros _ _. left. reflexivity.
  - unfold slices. cbn. eapply inv_perm; [|apply perm_swap]. apply inv_dead; [assumption|cbn; lia|left; reflexivity].
Qed.
Lemma HR_adv : forall F hs st n, HR F hs st -> HR F (hadvance bufsz n hs) (advance bufsz n st).
Proof. intros F hs st n H. unfold hadvance, advance. rewrite (R_src _ _ _ H). apply HR_src. exact H. Qed.
Lemma HR_peek : forall F hs st, HR F hs st -> fst (hpeek hs) = fst (peek st) /\ HR F (snd (hpeek hs)) (snd (peek st)) /\ h_heap (snd (hpeek hs)) = h_heap hs.
Proof. intros F hs st H. unfold hpeek, peek. rewrite (R_src _ _ _ H). destruct (i_peek (m_src st)) as [b s]. cbn. split; [reflexivity|]. split; [apply HR_src; exact H|reflexivity]. Qed.
Lemma HR_top : forall F hs st k k' c rest e rest', HR F hs st -> h_stk hs = HSE k c :: rest -> m_stk st = e :: rest' ->
  HR F (hset_stk (HSE k' c :: rest) (h_base hs) (h_heap hs) hs) (set_stk (SE k' (s_capt e) :: rest') (m_base st) st).
Proof.
  intros F hs st k k' c rest e rest' H E1 E2. destruct H. rewrite E1, E2 in R_stk0. apply Forall2_cons_iff in R_stk0. destruct R_stk0 as [(A1 & A2 & A3) A4].
  constructor; cbn; auto; [constructor; [split; [reflexivity|split; assumption]|exact A4]|]. unfold slices in *. cbn. rewrite E1 in R_inv0. exact R_inv0.
Qed.
Lemma mpos_eq : forall F hs st, HR F hs st -> hpos hs = mpos st.
Proof. intros F hs st H. unfold hpos, mpos. rewrite (R_src _ _ _ H). reflexivity. Qed.
Lemma next_same : forall F hs st, HR F hs st -> forall h, h_heap hs = h -> resR F h (HNext hs) (Next st).
Proof. intros F hs st H h <- _. exists F. split; [exact H|apply ext_refl]. Qed.

Lemma memo_nil : forall F hs st id pos l c, HR F hs st -> HR F (hmemoize hops intrvl id pos l c nil_slice hs) (memoize ops intrvl id pos l c [] st).
Proof.
  intros F hs st id pos l c H. unfold hmemoize, memoize. rewrite (mpos_eq _ _ _ H), (R_src _ _ _ H).
  replace (match intrvl with Some _ => nil_slice | None => nil_slice end) with nil_slice by (destruct intrvl; reflexivity).
  replace (match intrvl with Some _ => [] | None => [] end) with (@nil capture) by (destruct intrvl; reflexivity).
  destruct H. constructor; cbn; auto. apply RT_put; [assumption|lia|apply swf_nil|]. intros _. left. reflexivity.
Qed.
Lemma do_fail_ok : forall stk stk' F hs st, HR F (hset_stk stk (h_base hs) (h_heap hs) hs) (set_stk stk' (m_base st) st) ->
  resR F (h_heap hs) (hdo_fail bufsz hops intrvl stk hs) (do_fail bufsz ops intrvl stk' st).
Proof.
  induction stk as [|he stk IH]; intros stk' F hs st H; pose proof (R_stk _ _ _ H) as K; cbn in K.
  - destruct stk' as [|e stk']; [|inversion K]. cbn. intros _. exists F. split; [exact H|]. split; [apply ext_refl|]. split; [reflexivity|].
    split; [exact (mpos_eq _ _ _ H)|]. split; [exact (R_errs _ _ _ H)|exact Logic.I].
  - destruct stk' as [|e stk']; [inversion K|]. apply Forall2_cons_iff in K. destruct K as [(K1 & K2 & K3) K4].
    assert (H' : HR F (hset_stk stk (h_base hs) (h_heap hs) hs) (set_stk stk' (m_base st) st)).
    { destruct H. constructor; cbn in *; auto. unfold slices in *. cbn in *. eapply inv_perm in R_inv0; [|apply perm_swap]. eapply inv_tail; exact R_inv0. }
    cbn [hdo_fail do_fail]. rewrite K1. destruct (s_kind e).
    + apply IH. exact H'.
    + pose proof (R_src _ _ _ H) as Sr. cbn in Sr. rewrite Sr. apply next_same; [|reflexivity]. apply HR_ip, HR_src. exact H'.
    + specialize (IH stk' F (hmemoize hops intrvl id pos None 0 nil_slice hs) (memoize ops intrvl id pos None 0 [] st)). apply IH.
      apply (memo_nil F _ _ id pos None 0) in H'. exact H'.
    + apply next_same; [exact H'|reflexivity].
    + apply IH. exact H'.
    + apply IH. exact H'.
Qed.
Lemma fail_ok : forall F hs st, HR F hs st -> forall h, h_heap hs = h -> resR F h (hfail bufsz hops intrvl hs) (fail bufsz ops intrvl st).
Proof.
  intros F hs st H h <-. apply do_fail_ok. destruct H. constructor; cbn; auto.
Qed.
Lemma resR_ext : forall F h F' h' r r', ext F h F' h' -> resR F' h' r r' -> resR F h r r'.
Proof.
  intros F h F' h' r r' E H. destruct r, r'; cbn in *; auto; intro O; specialize (H O); destruct H as (F'' & H); exists F''.
  - destruct H as [H1 H2]. split; [exact H1|]. eapply ext_trans; eassumption.
  - destruct H as (H1 & H2 & H3). split; [exact H1|]. split; [eapply ext_trans; eassumption|exact H3].
Qed.

Lemma span_ok : forall fuel s F hs st, HR F hs st -> HR F (hspan_loop bufsz fuel s hs) (span_loop bufsz fuel s st) /\ h_heap (hspan_loop bufsz fuel s hs) = h_heap hs.
Proof.
  induction fuel as [|fuel IH]; intros s F hs st H; cbn [hspan_loop span_loop]; destruct (HR_peek _ _ _ H) as (P1 & P2 & P3);
    destruct (hpeek hs) as [b hs']; destruct (peek st) as [b' st']; cbn in P1, P2, P3; subst b'; [auto|].
  destruct b as [b|]; [|auto]. destruct (cs_has s b); [|auto].
  destruct (IH s F (hadvance bufsz 1 hs') (advance1 bufsz st') (HR_adv _ _ _ 1 P2)) as [Q1 Q2]. split; [exact Q1|]. rewrite Q2. exact P3.
Qed.
Lemma close_ok : forall n id F hs st, HR F hs st -> HR F (htree_close grow n id hs) (tree_close n id st) /\ ext F (h_heap hs) F (h_heap (htree_close grow n id hs)).
Proof.
  induction n as [|n IH]; intros id F hs st H; cbn [htree_close tree_close]; [split; [exact H|apply ext_refl]|].
  pose proof (R_stk _ _ _ H) as K. destruct (h_stk hs) as [|[k c] stk] eqn:E1; (destruct (m_stk st) as [|[k' c'] stk'] eqn:E2; [try (inversion K; fail)|try (inversion K; fail)]).
  - split; [exact H|apply ext_refl].
  - apply Forall2_cons_iff in K. destruct K as [(K1 & _) _]. cbn in K1. subst k'. destruct k; try (split; [exact H|apply ext_refl]).
    destruct (_ =? _)%Z; [|split; [exact H|apply ext_refl]]. destruct (hpop_snd F hs st H) as [P1 P2]. destruct (IH id F _ _ P1) as [Q1 Q2].
    split; [exact Q1|]. eapply ext_trans; eassumption.
Qed.
Lemma pops_ok : forall n F hs st, HR F hs st -> HR F (htree_pops grow n hs) (tree_pops n st) /\ ext F (h_heap hs) F (h_heap (htree_pops grow n hs)).
Proof.
  induction n as [|n IH]; intros F hs st H; cbn [htree_pops tree_pops]; [split; [exact H|apply ext_refl]|].
  destruct (hpop_snd F hs st H) as [P1 P2]. destruct (IH F _ _ P1) as [Q1 Q2]. split; [exact Q1|]. eapply ext_trans; eassumption.
Qed.

(** a slice becomes the children of a new capture *)
Lemma node_ok : forall F hs st t ds d id lo ln, HR F hs st -> beside F hs t ds -> (d = true -> ds <> []) ->
  exists F', HR F' (hadd1 grow (HCap d id lo ln t) hs) (add [Capture d id lo ln ds] st) /\ ext F (h_heap hs) F' (h_heap (hadd1 grow (HCap d id lo ln t) hs)).
Proof.
  intros F hs st t ds d id lo ln H (I & W & Sn) D. exists (freeze F t).
  assert (H' : HR (freeze F t) hs st) by (apply (HR_freeze F); [exact H|apply more_freeze|apply inv_freeze; exact I]).
  destruct (hadd1_ok (freeze F t) hs st (HCap d id lo ln t) (Capture d id lo ln ds) H') as [Q1 Q2].
  - apply (swf_more _ (freeze F t)) in W; [|apply more_freeze]. destruct W as [W1 W2]. constructor; [apply freeze_self|exact W1|exact D|exact W2].
  - split; [exact Q1|]. eapply ext_trans; [|exact Q2]. split; [apply more_freeze|intros a _; reflexivity].
Qed.
Lemma add_node_ok : forall F hs st t ds id lo hi, HR F hs st -> beside F hs t ds ->
  exists F', HR F' (hadd_node grow intrvl id lo hi t hs) (add_node intrvl id lo hi ds st) /\ ext F (h_heap hs) F' (h_heap (hadd_node grow intrvl id lo hi t hs)).
Proof.
  intros F hs st t ds id lo hi H B. unfold hadd_node, add_node. destruct (ivl_overlaps intrvl lo hi); [|exists F; split; [exact H|apply ext_refl]].
  rewrite (R_range _ _ _ H). set (r := (_, _)). exact (node_ok F (hset_range r hs) (set_range r st) t ds false id lo (hi - lo) (HR_range _ _ _ r H) B ltac:(discriminate)).
Qed.

Lemma m_tbl_add : forall cs (st : mst), m_tbl (add cs st) = m_tbl st.
Proof. intros cs st. unfold add. destruct (add_capt cs (m_stk st) (m_base st)). reflexivity. Qed.
Lemma m_tbl_pop : forall b (st : mst), m_tbl (snd (pop b st)) = m_tbl st.
Proof. intros b st. unfold pop. destruct (m_stk st); [reflexivity|]. destruct b; [|reflexivity]. cbn [snd]. rewrite m_tbl_add. reflexivity. Qed.
Lemma m_tbl_pops : forall n (st : mst), m_tbl (tree_pops n st) = m_tbl st.
Proof. induction n; intro st; [reflexivity|]. cbn [tree_pops]. rewrite IHn. apply m_tbl_pop. Qed.
Lemma m_tbl_close : forall n id (st : mst), m_tbl (tree_close n id st) = m_tbl st.
Proof.
  induction n; intros id st; [reflexivity|]. cbn [tree_close]. destruct (m_stk st) as [|[[] c] k]; try reflexivity. destruct (_ =? _)%Z; [|reflexivity].
  rewrite IHn. apply m_tbl_pop.
Qed.
Lemma m_tbl_span : forall n s (st : mst), m_tbl (span_loop bufsz n s st) = m_tbl st.
Proof.
  induction n as [|n IH]; intros s st; cbn [span_loop]; destruct (peek st) as [b st'] eqn:E; unfold peek in E; destruct (i_peek (m_src st)); injection E as <- <-; [reflexivity|].
  destruct o; [|reflexivity]. destruct (cs_has s _); [|reflexivity]. rewrite IH. reflexivity.
Qed.
Lemma m_tbl_node : forall id lo hi cs (st : mst), m_tbl (add_node intrvl id lo hi cs st) = m_tbl st.
Proof. intros. unfold add_node. destruct (ivl_overlaps intrvl lo hi); [|reflexivity]. rewrite m_tbl_add. reflexivity. Qed.

Lemma ok_memo : forall id pos l c cs st, ok (memoize ops intrvl id pos l c cs st) -> ok st.
Proof. intros id pos l c cs st O S. specialize (O S). unfold memoize in O. cbn in O. apply okt_put in O; tauto. Qed.
Lemma tree_ok_mono : forall fuel seen accum st, ok (tree_loop ops intrvl fuel seen accum st) -> ok st.
Proof.
  induction fuel as [|fuel IH]; intros seen accum st O; [exact O|]. cbn [tree_loop] in O.
  destruct (nth_error (m_stk st) seen) as [[[] c]|]; try exact O. destruct (nth_error (m_stk st) (S seen)) as [[[] c0]|]; try exact O.
  destruct (_ <? _); [eapply IH; exact O|].
  match type of O with context [pop false ?x] => set (s1 := x) in * end.
  assert (T1 : m_tbl s1 = m_tbl st) by apply m_tbl_pops.
  destruct (pop false s1) as [ent s2] eqn:P. assert (T2 : m_tbl s2 = m_tbl st) by (rewrite <- T1; change s2 with (snd (ent, s2)); rewrite <- P; apply m_tbl_pop).
  match type of O with context [m_stk ?x] => set (s3 := x) in * end.
  assert (T3 : m_tbl s3 = m_tbl st).
  { unfold s3. destruct ent as [[[] cs]|]; try exact T2. destruct cs; [exact T2|]. destruct intrvl; rewrite m_tbl_add; exact T2. }
  assert (OK : ok s3 -> ok st) by (unfold ok; rewrite T3; auto).
  destruct (m_stk s3) as [|[[] c1] rest]; try (apply OK; exact O). apply IH in O. apply ok_memo in O. apply OK. exact O.
Qed.

Lemma Forall2_nth : forall A B (R : A -> B -> Prop) l l', Forall2 R l l' -> forall n,
  match nth_error l n, nth_error l' n with Some x, Some y => R x y | None, None => True | _, _ => False end.
Proof. intros A B R l l' H. induction H; intro n; destruct n; cbn; auto. apply IHForall2. Qed.

Lemma tree_ok : forall fuel seen accum F hs st, HR F hs st -> ok (tree_loop ops intrvl fuel seen accum st) ->
  exists F', HR F' (htree_loop grow hops intrvl fuel seen accum hs) (tree_loop ops intrvl fuel seen accum st) /\
    ext F (h_heap hs) F' (h_heap (htree_loop grow hops intrvl fuel seen accum hs)).
Proof.
  induction fuel as [|fuel IH]; intros seen accum F hs st H O; [exists F; split; [exact H|apply ext_refl]|].
  cbn [tree_loop htree_loop] in *. pose proof (R_stk _ _ _ H) as K.
  pose proof (Forall2_nth _ _ _ _ _ K seen) as K1. pose proof (Forall2_nth _ _ _ _ _ K (S seen)) as K2.
  destruct (nth_error (h_stk hs) seen) as [[k1 c1]|]; (destruct (nth_error (m_stk st) seen) as [[k1' c1']|]; try contradiction).
  2:{ exists F; split; [exact H|apply ext_refl]. }
  destruct K1 as (K1 & _). cbn in K1. subst k1'. destruct k1 as [ | | |id1 pos1 tc| | ]; try (exists F; split; [exact H|apply ext_refl]).
  destruct (nth_error (h_stk hs) (S seen)) as [[k2 c2]|]; (destruct (nth_error (m_stk st) (S seen)) as [[k2' c2']|]; try contradiction).
  2:{ exists F; split; [exact H|apply ext_refl]. }
  destruct K2 as (K2 & _). cbn in K2. subst k2'. destruct k2 as [ | | |nid npos nc| | ]; try (exists F; split; [exact H|apply ext_refl]).
  destruct (_ <? _); [apply IH; assumption|]. replace (S seen - 1) with seen in * by lia.
  destruct (pops_ok seen F hs st H) as [P1 P2]. set (hs1 := htree_pops grow seen hs) in *. set (st1 := tree_pops seen st) in *.
  assert (X : exists hent ent hs2 st2 F2, hpop grow false hs1 = (hent, hs2) /\ pop false st1 = (ent, st2) /\ HR F2 hs2 st2 /\ ext F (h_heap hs) F2 (h_heap hs2) /\
    match hent, ent with
    | Some he, Some e => hs_kind he = s_kind e /\ beside F2 hs2 (hs_capt he) (s_capt e)
    | None, None => True
    | _, _ => False
    end).
  { destruct (h_stk hs1) as [|he stk] eqn:E.
    - destruct (hpop_none F hs1 st1 false P1 E) as [-> ->]. exists None, None, hs1, st1, F. auto.
    - destruct (hpop_false F hs1 st1 he stk P1 E) as (e & stk' & M & Kd & Q1 & Q2 & Q3 & Q4). do 4 eexists. exists F. split; [exact Q1|]. split; [exact Q2|]. split; [exact Q3|].
      split; [exact P2|]. split; [exact Kd|exact Q4]. }
  destruct X as (hent & ent & hs2 & st2 & F2 & E1 & E2 & R2 & X2 & B2). rewrite E1, E2 in *.
  match goal with |- context [h_stk ?x] => match x with match hent with _ => _ end => set (hs3 := x) in * end end.
  match type of O with context [m_stk ?x] => match x with match ent with _ => _ end => set (st3 := x) in * end end.
  assert (X : exists F3, HR F3 hs3 st3 /\ ext F (h_heap hs) F3 (h_heap hs3)).
  { unfold hs3, st3. destruct hent as [[hk hc]|], ent as [[k c]|]; try contradiction; [|exists F2; split; assumption].
    destruct B2 as [B1 B2]. cbn in B1, B2. subst hk. destruct k; try (exists F2; split; assumption).
    pose proof B2 as (_ & W & _). destruct (Nat.eqb_spec (sl_len hc) 0) as [Z|Z].
    - rewrite (swf_zero _ _ _ _ W Z). exists F2. split; assumption.
    - destruct c as [|c cs]; [apply swf_len in W; cbn in W; lia|]. destruct intrvl.
      + destruct (hadd_ok F2 hs2 st2 hc (c :: cs) R2 B2) as (Q1 & Q2 & _). exists F2. split; [exact Q1|]. eapply ext_trans; eassumption.
      + rewrite (mpos_eq _ _ _ R2). destruct (node_ok F2 hs2 st2 hc (c :: cs) true 0%Z pos (mpos st2 - pos) R2 B2 ltac:(discriminate)) as (F3 & Q1 & Q2).
        exists F3. split; [exact Q1|]. eapply ext_trans; eassumption. }
  destruct X as (F3 & R3 & X3). pose proof (R_stk _ _ _ R3) as K3. clearbody hs3 st3.
  destruct (h_stk hs3) as [|[k3 c3] rest] eqn:E3; (destruct (m_stk st3) as [|[k3' c3'] rest'] eqn:E3'; [try (inversion K3; fail)|try (inversion K3; fail)]).
  - exists F3. split; assumption.
  - apply Forall2_cons_iff in K3. destruct K3 as [(K3 & W3 & S3) _]. cbn in K3, W3, S3. subst k3'. destruct k3; try (exists F3; split; assumption).
    set (k4 := KTree nid npos (accum + tc + nc)) in *.
    pose proof (HR_top F3 hs3 st3 (KTree id pos count) k4 c3 rest (SE (KTree id pos count) c3') rest' R3 E3 E3') as R4. cbn [s_capt] in R4.
    set (hs4 := hset_stk (HSE k4 c3 :: rest) (h_base hs3) (h_heap hs3) hs3) in *. set (st4 := set_stk (SE k4 c3' :: rest') (m_base st3) st3) in *.
    assert (O' : ok (memoize ops intrvl nid npos (Some (mpos st4 - npos)) (accum + tc + nc) c3' st4)) by (eapply tree_ok_mono; exact O).
    destruct (hmemo_ok F3 hs4 st4 c3 c3' nid npos (Some (mpos st4 - npos)) (accum + tc + nc) R4) as (F5 & R5 & X5).
    { split; [right; unfold slices, hs4; cbn; auto|]. split; [exact W3|exact S3]. }
    { destruct strict eqn:S; [left; apply O'; exact S|right; reflexivity]. }
    rewrite (mpos_eq _ _ _ R4). destruct (IH 0 0 F5 _ _ R5 O) as (F6 & R6 & X6). exists F6. split; [exact R6|].
    eapply ext_trans; [exact X3|]. eapply ext_trans; [|exact X6]. exact X5.
Qed.

(** one instruction *)
Lemma next_ext : forall F hs st F' h, HR F' hs st -> ext F h F' (h_heap hs) -> resR F h (HNext hs) (Next st).
Proof. intros F hs st F' h H E _. exists F'. auto. Qed.
Lemma pop_cases : forall F hs st, HR F hs st ->
  (h_stk hs = [] /\ m_stk st = []) \/
  exists k c c' hs' st' , hpop grow true hs = (Some (HSE k c), hs') /\ pop true st = (Some (SE k c'), st') /\ HR F hs' st' /\ ext F (h_heap hs) F (h_heap hs') /\ known F hs' c c'.
Proof.
  intros F hs st H. destruct (h_stk hs) as [|[k c] stk] eqn:E.
  - left. pose proof (R_stk _ _ _ H) as K. rewrite E in K. destruct (m_stk st); [auto|inversion K].
  - right. destruct (hpop_true F hs st _ stk H E) as ([k' c'] & stk' & hs' & st' & _ & Kd & Q1 & Q2 & Q3 & Q4 & Q5). cbn in Kd, Q5. subst k'.
    exists k, c, c', hs', st'. auto.
Qed.
Lemma settled_beside : forall F hs st t ds, HR F hs st -> swf F (h_heap hs) t ds -> settled F (h_heap hs) t -> beside F hs t ds.
Proof.
  intros F hs st t ds H W S. split; [apply inv_dead; [apply (R_inv _ _ _ H)|apply W|exact S]|]. split; [exact W|]. intros _ _. destruct S as [S|[_ S]]; auto.
Qed.
Ltac same H := apply (next_same _ _ _ H); reflexivity || assumption.

Lemma exec_ok : forall i next F hs st, HR F hs st -> resR F (h_heap hs) (hexec_d grow bufsz hops check intrvl i next hs) (exec_d bufsz ops check intrvl i next st).
Proof.
  intros i next F hs st H. pose proof (mpos_eq _ _ _ H) as Hp. pose proof (R_src _ _ _ H) as Hsrc.
  destruct (HR_peek _ _ _ H) as (P1 & P2 & P3).
  destruct i; cbn [hexec_d exec_d]; try exact Logic.I.
  - (* Char *) destruct (hpeek hs) as [c hs1], (peek st) as [c' st1]. cbn in P1, P2, P3. subst c'. destruct c as [c|]; [|apply fail_ok; assumption].
    destruct (byte_eqb b c); [|apply fail_ok; assumption]. apply (next_same F); [apply HR_ip; exact (HR_adv _ _ _ 1 P2)|exact P3].
  - apply (next_same F); [apply HR_ip; exact H|reflexivity].
  - rewrite Hp. apply (next_same F); [apply HR_ip, HR_push; exact H|reflexivity].
  - apply (next_same F); [apply HR_ip, HR_push; exact H|reflexivity].
  - (* Commit *) destruct (hpop_snd _ _ _ H) as [Q1 Q2]. apply (next_ext F _ _ F); [apply HR_ip; exact Q1|exact Q2].
  - (* Return *) destruct (pop_cases _ _ _ H) as [[E1 E2]|(k & c & c' & hs' & st' & E1 & E2 & Q1 & Q2 & Q3)].
    + unfold hpop, pop. rewrite E1, E2. exact Logic.I.
    + rewrite E1, E2. destruct k; try exact Logic.I. apply (next_ext F _ _ F); [apply HR_ip; exact Q1|exact Q2].
  - apply fail_ok; [exact H|reflexivity].
  - (* Set *) destruct (hpeek hs) as [c hs1], (peek st) as [c' st1]. cbn in P1, P2, P3. subst c'. destruct c as [c|]; [|apply fail_ok; assumption].
    destruct (cs_has s c); [|apply fail_ok; assumption]. apply (next_same F); [apply HR_ip; exact (HR_adv _ _ _ 1 P2)|exact P3].
  - (* Any *) rewrite Hsrc. destruct (i_advance bufsz (m_src st) (N.to_nat (bN n))) as [ok' src]. destruct ok'.
    + apply (next_same F); [apply HR_ip, HR_src; exact H|reflexivity].
    + apply fail_ok; [apply HR_src; exact H|reflexivity].
  - (* PartialCommit *) destruct (h_stk hs) as [|[k c] rest] eqn:E.
    { pose proof (R_stk _ _ _ H) as K. rewrite E in K. destruct (m_stk st); [exact Logic.I|inversion K]. }
    destruct (hpop_false F hs st _ rest H E) as ([k' c'] & rest' & M & Kd & _ & _ & Q3 & Q4). cbn in Kd, Q4. subst k'. rewrite M. destruct k; try exact Logic.I.
    destruct (hadd_ok _ _ _ _ _ Q3 Q4) as (A1 & A2 & _). set (hs' := hadd grow c (hset_stk rest (h_base hs) (h_heap hs) hs)) in *.
    unfold add in A1. cbn [m_stk m_base set_stk] in A1. destruct (add_capt c' rest' (m_base st)) as [r2 b2] eqn:Ea.
    assert (G : HR F (hset_stk (HSE (KBtrack ip (hpos hs)) nil_slice :: h_stk hs') (h_base hs') (h_heap hs') hs') (set_stk (SE (KBtrack ip (mpos st)) [] :: r2) b2 st)).
    { rewrite Hp. apply (HR_push F _ _ (KBtrack ip (mpos st))) in A1. exact A1. }
    apply (next_ext F _ _ F); [apply HR_ip; exact G|exact A2].
  - (* Span *) rewrite Hsrc. destruct (span_ok (S (List.length (i_data (m_src st)))) s F hs st H) as [Q1 Q2]. apply (next_same F); [apply HR_ip; exact Q1|exact Q2].
  - (* BackCommit *) destruct (pop_cases _ _ _ H) as [[E1 E2]|(k & c & c' & hs' & st' & E1 & E2 & Q1 & Q2 & Q3)].
    + unfold hpop, pop. rewrite E1, E2. exact Logic.I.
    + rewrite E1, E2. destruct k; try exact Logic.I. rewrite (R_src _ _ _ Q1). apply (next_ext F _ _ F); [apply HR_ip, HR_src; exact Q1|exact Q2].
  - (* FailTwice *) destruct (h_stk hs) as [|he rest] eqn:E.
    + destruct (hpop_none F hs st false H E) as [-> ->]. apply fail_ok; [exact H|reflexivity].
    + destruct (hpop_false F hs st _ rest H E) as (e & rest' & M & Kd & -> & -> & Q3 & Q4). apply fail_ok; [exact Q3|reflexivity].
  - (* Empty *) rewrite Hsrc. destruct (hpeek hs) as [c hs1], (peek st) as [c' st1]. cbn in P1, P2, P3. subst c'.
    destruct (_ =? 0)%N; [apply fail_ok; assumption|]. apply (next_same F); [apply HR_ip; exact P2|exact P3].
  - (* TestChar *) destruct (hpeek hs) as [c hs1], (peek st) as [c' st1]. cbn in P1, P2, P3. subst c'. rewrite (mpos_eq _ _ _ P2).
    destruct c as [c|]; [|apply (next_same F); [apply HR_ip; exact P2|exact P3]].
    destruct (byte_eqb c b); (apply (next_same F); [apply HR_ip|exact P3]); [exact (HR_adv _ _ _ 1 (HR_push _ _ _ _ P2))|exact P2].
  - destruct (hpeek hs) as [c hs1], (peek st) as [c' st1]. cbn in P1, P2, P3. subst c'.
    destruct c as [c|]; [|apply (next_same F); [apply HR_ip; exact P2|exact P3]].
    destruct (byte_eqb c b); (apply (next_same F); [apply HR_ip|exact P3]); [exact (HR_adv _ _ _ 1 P2)|exact P2].
  - destruct (hpeek hs) as [c hs1], (peek st) as [c' st1]. cbn in P1, P2, P3. subst c'. rewrite (mpos_eq _ _ _ P2).
    destruct c as [c|]; [|apply (next_same F); [apply HR_ip; exact P2|exact P3]].
    destruct (cs_has s c); (apply (next_same F); [apply HR_ip|exact P3]); [exact (HR_adv _ _ _ 1 (HR_push _ _ _ _ P2))|exact P2].
  - destruct (hpeek hs) as [c hs1], (peek st) as [c' st1]. cbn in P1, P2, P3. subst c'.
    destruct c as [c|]; [|apply (next_same F); [apply HR_ip; exact P2|exact P3]].
    destruct (cs_has s c); (apply (next_same F); [apply HR_ip|exact P3]); [exact (HR_adv _ _ _ 1 P2)|exact P2].
  - (* TestAny *) rewrite Hsrc, Hp. destruct (i_advance bufsz (m_src st) (N.to_nat (bN n))) as [ok' src].
    destruct ok'; (apply (next_same F); [apply HR_ip|reflexivity]); [apply HR_push|]; apply HR_src; exact H.
  - (* End *) intros _. exists F. split; [exact H|]. split; [apply ext_refl|]. unfold hfinish, finish. rewrite Hp, (R_errs _ _ _ H), (R_range _ _ _ H).
    pose proof (swf_more _ (freeze F (h_base hs)) _ _ _ (R_base _ _ _ H) (more_freeze _ _)).
    destruct intrvl; cbn; auto 10.
  - (* MemoOpen *) rewrite Hp. destruct (RT_get F (h_heap hs) (h_tbl hs) (m_tbl st) id (mpos st) (R_tbl _ _ _ H)) as [G1 G2].
    destruct (ht_get hops (h_tbl hs) id (mpos st)) as [he th], (t_get ops (m_tbl st) id (mpos st)) as [e tv]. cbn in G1, G2.
    assert (H' : HR F (hset_tbl th hs) (set_tbl tv st)) by (destruct H; constructor; cbn; auto).
    destruct he as [[hl hc s]|], e as [[l0 c cs]|]; try contradiction.
    + destruct G1 as (<- & <- & G1 & G3). destruct hl as [n|]; [|apply fail_ok; [exact H'|reflexivity]].
      destruct (hadd_ok F _ _ s cs H' (settled_beside _ _ _ _ _ H' G1 G3)) as (Q1 & Q2 & _).
      apply (next_ext F _ _ F); [apply HR_ip, HR_adv; exact Q1|exact Q2].
    + change (hpos (hset_tbl th hs)) with (hpos hs). rewrite Hp. apply (next_same F); [apply HR_ip; exact (HR_push _ _ _ _ H')|reflexivity].
  - (* MemoClose *) destruct (pop_cases _ _ _ H) as [[E1 E2]|(k & c & c' & hs' & st' & E1 & E2 & Q1 & Q2 & Q3)].
    + unfold hpop, pop. rewrite E1, E2. exact Logic.I.
    + rewrite E1, E2. destruct k; try exact Logic.I. rewrite (mpos_eq _ _ _ Q1). intro O.
      destruct (hmemo_ok F hs' st' c c' id pos (Some (mpos st' - pos)) 1 Q1 Q3) as (F' & A1 & A2).
      { destruct strict eqn:S; [left; exact (O S)|right; reflexivity]. }
      exists F'. split; [apply HR_ip; exact A1|]. eapply ext_trans; eassumption.
  - (* MemoTreeOpen *) rewrite Hp. destruct (RT_get F (h_heap hs) (h_tbl hs) (m_tbl st) id (mpos st) (R_tbl _ _ _ H)) as [G1 G2].
    destruct (ht_get hops (h_tbl hs) id (mpos st)) as [he th], (t_get ops (m_tbl st) id (mpos st)) as [e tv]. cbn in G1, G2.
    assert (H' : HR F (hset_tbl th hs) (set_tbl tv st)) by (destruct H; constructor; cbn; auto).
    change (hpos (hset_tbl th hs)) with (hpos hs). rewrite Hp. change (mpos (set_tbl tv st)) with (mpos st).
    destruct he as [[hl hc s]|], e as [[l0 c cs]|]; try contradiction.
    + destruct G1 as (<- & <- & G1 & G3). destruct hl as [n|]; [|apply fail_ok; [exact H'|reflexivity]].
      pose proof (HR_push F _ _ (KTree id (mpos st) hc) H') as H2.
      destruct (hadd_ok F _ _ s cs H2 (settled_beside _ _ _ _ _ H2 G1 G3)) as (Q1 & Q2 & _).
      destruct (HR_peek F _ _ (HR_adv _ _ _ n Q1)) as (_ & B2 & B3). apply (next_ext F _ _ F); [apply HR_ip; exact B2|]. cbn [h_heap hset_ip]. rewrite B3. exact Q2.
    + apply (next_same F); [apply HR_ip; exact (HR_push _ _ _ _ H')|reflexivity].
  - (* MemoTreeInsert *) pose proof (R_stk _ _ _ H) as K.
    destruct (h_stk hs) as [|[k c] rest] eqn:E; (destruct (m_stk st) as [|[k' c'] rest'] eqn:E'; [try (inversion K; fail)|try (inversion K; fail)]); [exact Logic.I|].
    apply Forall2_cons_iff in K. destruct K as [(K1 & K2 & K3) _]. cbn in K1, K2, K3. subst k'. destruct k; try exact Logic.I.
    pose proof (HR_top F hs st (KTree id pos count) (KTree id pos (S count)) c rest (SE (KTree id pos count) c') rest' H E E') as R4. cbn [s_capt] in R4. intro O.
    rewrite (mpos_eq _ _ _ R4). match goal with |- context [memoize ops intrvl id pos ?l _ _ ?s4] => destruct (hmemo_ok F _ _ c c' id pos l (S count) R4) as (F' & A1 & A2) end.
    { split; [right; unfold slices; cbn; auto|]. split; assumption. }
    { destruct strict eqn:S; [left; exact (O S)|right; reflexivity]. }
    exists F'. split; [apply HR_ip; exact A1|exact A2].
  - (* MemoTree *) replace (List.length (h_stk hs)) with (List.length (m_stk st)).
    2:{ pose proof (R_stk _ _ _ H) as K. clear -K. induction K; cbn; congruence. }
    intro O. destruct (tree_ok (S (List.length (m_stk st)) * S (List.length (m_stk st))) 0 0 F hs st H O) as (F' & A1 & A2). exists F'. split; [apply HR_ip; exact A1|exact A2].
  - (* MemoTreeClose *) replace (List.length (h_stk hs)) with (List.length (m_stk st)).
    2:{ pose proof (R_stk _ _ _ H) as K. clear -K. induction K; cbn; congruence. }
    destruct (close_ok (List.length (m_stk st)) id F hs st H) as [Q1 Q2]. apply (next_ext F _ _ F); [apply HR_ip; exact Q1|exact Q2].
  - rewrite Hp. apply (next_same F); [apply HR_ip, HR_push; exact H|reflexivity].
  - rewrite Hp. apply (next_same F); [apply HR_ip, HR_push; exact H|reflexivity].
  - (* CaptureEnd *) destruct (h_stk hs) as [|[k c] rest] eqn:E.
    + destruct (hpop_none F hs st false H E) as [-> ->]. exact Logic.I.
    + destruct (hpop_false F hs st _ rest H E) as ([k' c'] & rest' & M & Kd & -> & -> & Q3 & Q4). cbn in Kd, Q4. subst k'. destruct k; try exact Logic.I.
      rewrite (mpos_eq _ _ _ Q3). destruct (add_node_ok F _ _ c c' id pos (mpos (set_stk rest' (m_base st) st)) Q3 Q4) as (F' & A1 & A2).
      apply (next_ext F _ _ F'); [apply HR_ip; exact A1|exact A2].
  - (* CaptureFull *) rewrite Hp.
    destruct (add_node_ok F hs st nil_slice [] id (mpos st - N.to_nat (bN back)) (mpos st) H) as (F' & Q1 & Q2).
    { eapply settled_beside; [exact H|apply swf_nil|left; reflexivity]. }
    apply (next_ext F _ _ F'); [apply HR_ip; exact Q1|exact Q2].
  - rewrite Hp. apply (next_same F); [apply HR_ip, HR_push; exact H|reflexivity].
  - (* CheckEnd *) destruct (pop_cases _ _ _ H) as [[E1 E2]|(k0 & c & c' & hs' & st' & E1 & E2 & Q1 & Q2 & Q3)].
    + unfold hpop, pop. rewrite E1, E2. exact Logic.I.
    + rewrite E1, E2. destruct k0; try exact Logic.I. rewrite (mpos_eq _ _ _ Q1), (R_src _ _ _ Q1), (R_cs _ _ _ Q1).
      destruct (check _ _ _ _ _ _ _) as [cs r]. apply (resR_ext F (h_heap hs) F (h_heap hs')); [exact Q2|]. destruct r as [n|].
      * apply (next_same F); [apply HR_ip, HR_adv, HR_cs; exact Q1|reflexivity].
      * apply fail_ok; [apply HR_cs; exact Q1|reflexivity].
  - rewrite Hp, (R_errs _ _ _ H). apply (next_same F); [apply HR_ip, HR_errs; exact H|reflexivity].
Qed.

(** the flag never comes back *)
Definition res_ok (r : step_res T CS) : Prop := match r with Next st | Done _ st => ok st | Crash => False end.
Lemma ok_tbl : forall (st st' : mst), m_tbl st = m_tbl st' -> ok st -> ok st'.
Proof. intros st st' E O S. rewrite <- E. exact (O S). Qed.
Lemma fail_mono : forall stk st, res_ok (do_fail bufsz ops intrvl stk st) -> ok st.
Proof.
  induction stk as [|e stk IH]; intros st O; cbn [do_fail] in O; [exact O|]. destruct (s_kind e); try exact O; try (apply IH; exact O).
  apply IH in O. apply ok_memo in O. exact O.
Qed.
Lemma peek_tbl : forall (st : mst), m_tbl (snd (peek st)) = m_tbl st.
Proof. intro st. unfold peek. destruct (i_peek (m_src st)). reflexivity. Qed.
Lemma ok_got : forall id pos st, ok (set_tbl (snd (t_get ops (m_tbl st) id pos)) st) -> ok st.
Proof. intros id pos st O S. specialize (O S). cbn in O. eapply okt_get. exact O. Qed.
Lemma exec_mono : forall i next st, res_ok (exec_d bufsz ops check intrvl i next st) -> ok st.
Proof.
  intros i next st O. pose proof (peek_tbl st) as Pt.
  assert (Fm : forall s, m_tbl s = m_tbl st -> res_ok (fail bufsz ops intrvl s) -> ok st) by (intros s E X; apply (ok_tbl s); [exact E|]; eapply fail_mono; exact X).
  destruct i; cbn [exec_d] in O; try contradiction; try exact O.
  - destruct (peek st) as [c s1]. cbn in Pt. destruct c as [c|]; [|eapply Fm; [|exact O]; exact Pt]. destruct (byte_eqb b c); [apply (ok_tbl s1); [exact Pt|exact O]|eapply Fm; [|exact O]; exact Pt].
  - eapply ok_tbl; [|exact O]. apply m_tbl_pop.
  - destruct (pop true st) as [[[[] ?]|] s1] eqn:E; try contradiction. eapply ok_tbl; [|exact O]. change s1 with (snd (Some (SE (KRet ret) s_capt), s1)). cbn. 
    replace s1 with (snd (pop true st)) by (rewrite E; reflexivity). apply m_tbl_pop.
  - eapply Fm; [|exact O]. reflexivity.
  - destruct (peek st) as [c s1]. cbn in Pt. destruct c as [c|]; [|eapply Fm; [|exact O]; exact Pt]. destruct (cs_has s c); [apply (ok_tbl s1); [exact Pt|exact O]|eapply Fm; [|exact O]; exact Pt].
  - destruct (i_advance _ _ _) as [[] src]; [exact O|]. eapply Fm; [|exact O]. reflexivity.
  - destruct (m_stk st) as [|[[] c] rest]; try contradiction. destruct (add_capt _ _ _). exact O.
  - eapply ok_tbl; [|exact O]. cbn [m_tbl set_ip]. apply m_tbl_span.
  - destruct (pop true st) as [[[[] ?]|] s1] eqn:E; try contradiction. eapply ok_tbl; [|exact O]. cbn. replace s1 with (snd (pop true st)) by (rewrite E; reflexivity). apply m_tbl_pop.
  - eapply Fm; [|exact O]. apply m_tbl_pop.
  - destruct (peek st) as [c s1]. cbn in Pt. destruct (_ =? 0)%N; [eapply Fm; [|exact O]; exact Pt|apply (ok_tbl s1); [exact Pt|exact O]].
  - destruct (peek st) as [c s1]. cbn in Pt. destruct c as [c|]; [destruct (byte_eqb c b)|]; (apply (ok_tbl s1); [exact Pt|exact O]).
  - destruct (peek st) as [c s1]. cbn in Pt. destruct c as [c|]; [destruct (byte_eqb c b)|]; (apply (ok_tbl s1); [exact Pt|exact O]).
  - destruct (peek st) as [c s1]. cbn in Pt. destruct c as [c|]; [destruct (cs_has s c)|]; (apply (ok_tbl s1); [exact Pt|exact O]).
  - destruct (peek st) as [c s1]. cbn in Pt. destruct c as [c|]; [destruct (cs_has s c)|]; (apply (ok_tbl s1); [exact Pt|exact O]).
  - destruct (i_advance _ _ _) as [[] src]; exact O.
  - pose proof (ok_got id (mpos st) st) as G. destruct (t_get _ _ _ _) as [[[[n|] c cs]|] tb]; cbn in G; apply G.
    + eapply ok_tbl; [|exact O]. cbn [m_tbl set_ip advance set_src]. apply m_tbl_add.
    + eapply fail_mono. exact O.
    + exact O.
  - destruct (pop true st) as [[[[] ?]|] s1] eqn:E; try contradiction. apply (ok_memo id pos (Some (mpos s1 - pos)) 1 s_capt s1) in O.
    eapply ok_tbl; [|exact O]. replace s1 with (snd (pop true st)) by (rewrite E; reflexivity). apply m_tbl_pop.
  - pose proof (ok_got id (mpos st) st) as G. destruct (t_get _ _ _ _) as [[[[n|] c cs]|] tb]; cbn in G; apply G.
    + eapply ok_tbl; [|exact O]. cbn [m_tbl set_ip]. rewrite peek_tbl. cbn [m_tbl advance set_src]. rewrite m_tbl_add. reflexivity.
    + eapply fail_mono. exact O.
    + exact O.
  - destruct (m_stk st) as [|[[] c] rest]; try contradiction.
    match type of O with res_ok (Next (set_ip _ ?m)) => match m with memoize _ _ _ _ ?l _ _ ?s1 => apply (ok_memo id pos l (S count) c s1) in O end end. exact O.
  - apply (tree_ok_mono _ 0 0 st O).
  - eapply ok_tbl; [|exact O]. cbn [m_tbl set_ip]. apply m_tbl_close.
  - destruct (pop false st) as [[[[] ?]|] s1] eqn:E; try contradiction. eapply ok_tbl; [|exact O]. cbn [m_tbl set_ip]. rewrite m_tbl_node. replace s1 with (snd (pop false st)) by (rewrite E; reflexivity). apply m_tbl_pop.
  - eapply ok_tbl; [|exact O]. cbn [m_tbl set_ip]. apply m_tbl_node.
  - destruct (pop true st) as [[[[] ?]|] s1] eqn:E; try contradiction.
    assert (T1 : m_tbl s1 = m_tbl st) by (replace s1 with (snd (pop true st)) by (rewrite E; reflexivity); apply m_tbl_pop).
    destruct (check _ _ _ _ _ _ _) as [cs r]. destruct r; [eapply ok_tbl; [|exact O]; exact T1|eapply Fm; [|exact O]; exact T1].
Qed.

(** ** Runs *)
Definition runR (F : frozen) (h : heap) (y : option (hrun_res HT CS)) (y' : option (run_res T CS)) : Prop :=
  match y, y' with
  | None, None => True
  | Some (HROk o hs), Some (ROk o' st) => exists F', HR F' hs st /\ ext F h F' (h_heap hs) /\ outR F' (h_heap hs) o o'
  | Some HRCrash, Some RCrash => True
  | _, _ => False
  end.
Definition run_ok (y : option (run_res T CS)) : Prop := match y with Some (ROk _ st) => ok st | _ => strict = false end.
Lemma run_mono : forall step, (forall st, res_ok (step st) -> ok st) -> forall f (st : mst), run_ok (run step f st) -> ok st.
Proof.
  intros step Hm. induction f as [|f IH]; intros st O; cbn [run] in O; [intro S; cbn in O; congruence|]. destruct (step st) as [s1|o s1|] eqn:E.
  - apply IH in O. apply Hm. rewrite E. exact O.
  - apply Hm. rewrite E. exact O.
  - intro S. cbn in O. congruence.
Qed.
Lemma step_mono : forall c st, res_ok (vm_step bufsz ops check intrvl c st) -> ok st.
Proof. intros c st O. unfold vm_step in O. destruct (decode c (m_ip st)); [eapply exec_mono; exact O|destruct O]. Qed.
Lemma step_ok : forall c F hs st, HR F hs st -> resR F (h_heap hs) (hvm_step grow bufsz hops check intrvl c hs) (vm_step bufsz ops check intrvl c st).
Proof. intros c F hs st H. unfold hvm_step, vm_step. rewrite (R_ip _ _ _ H). destruct (decode c (m_ip st)); [apply exec_ok; exact H|exact Logic.I]. Qed.
Lemma run_follow : forall c f F hs st, HR F hs st -> run_ok (run (vm_step bufsz ops check intrvl c) f st) ->
  runR F (h_heap hs) (hrun (hvm_step grow bufsz hops check intrvl c) f hs) (run (vm_step bufsz ops check intrvl c) f st).
Proof.
  intro c. induction f as [|f IH]; intros F hs st H O; cbn [hrun run] in *; [exact Logic.I|]. pose proof (step_ok c F hs st H) as S.
  destruct (hvm_step grow bufsz hops check intrvl c hs) as [hs1|o1 hs1|]; destruct (vm_step bufsz ops check intrvl c st) as [st1|o2 st1|]; cbn in S; try contradiction.
  - destruct (S (run_mono _ (step_mono c) f st1 O)) as (F' & H' & E). specialize (IH F' hs1 st1 H' O).
    destruct (hrun _ f hs1) as [[oo hh|]|], (run _ f st1) as [[oo' hh'|]|]; try contradiction; auto.
    destruct IH as (F2 & R2 & E2 & O2). exists F2. split; [exact R2|]. split; [eapply ext_trans; eassumption|exact O2].
  - destruct (S O) as (F' & X). exists F'. exact X.
  - exact Logic.I.
Qed.
End Follow.
