(** Consequences of the semantics of patterns. *)
From Verif Require Import Base Model_Charset Model_Isa Model_Capture Model_Code Model_VM Model_Pattern Spec_Peg Spec_Scope Spec_Run Spec_Props Proof_Eval Proof_Inline.
Local Open Scope nat_scope.

Lemma inv_not_ok : forall s CS check E p i w j ts w', peg s (CS:=CS) check E (PNot p) i w (RSucc j ts) w' -> j = i /\ ts = [] /\ peg s check E p i w RFail w'.
Proof. intros. inversion H; subst; auto. Qed.

Section Spec.
Variable s : list byte.
Variable CS : Type.
Variable check : nat -> CS -> list byte -> list byte -> nat -> Z -> Z -> CS * option nat.
Notation peg := (peg s check).
Notation world := (world CS).

(* ---------- predicates ---------- *)
Lemma not_spec : forall E p i w,
  (forall j ts w', peg E (PNot p) i w (RSucc j ts) w' <-> j = i /\ ts = [] /\ peg E p i w RFail w') /\
  (forall w', peg E (PNot p) i w RFail w' <-> exists j ts, peg E p i w (RSucc j ts) w').
Proof.
  intros E p i w. split.
  - intros. split; [apply inv_not_ok|]. intros (-> & -> & H). apply peg_not_ok. exact H.
  - intros. split; [intro H; inversion H; subst; eauto|]. intros (j & ts & H). eapply peg_not_fail. exact H.
Qed.
Lemma and_spec : forall E p i w,
  (forall j ts w', peg E (PAnd p) i w (RSucc j ts) w' <-> j = i /\ exists k, peg E p i w (RSucc k ts) w') /\
  (forall w', peg E (PAnd p) i w RFail w' <-> peg E p i w RFail w').
Proof.
  intros E p i w. split.
  - intros. split.
    + intro H. inversion H; subst; [split; [reflexivity|eauto]|]. match goal with H : forall j ts, _ <> _ |- _ => destruct (H _ _ eq_refl) end.
    + intros (-> & k & H). eapply peg_and_ok. exact H.
  - intros. split; [intro H; inversion H; subst; assumption|]. intro H. apply peg_and_no; [exact H|discriminate].
Qed.
Lemma and_not_not : forall E p i w r w',
  peg E (PNot (PNot p)) i w r w' <-> exists r', peg E (PAnd p) i w r' w' /\ r = forget r'.
Proof.
  intros. split.
  - intro H. inversion H; subst.
    + match goal with H : peg _ (PNot _) _ _ _ _ |- _ => inversion H; subst end. eexists. split; [eapply peg_and_ok; eassumption|reflexivity].
    + match goal with H : peg _ (PNot _) _ _ _ _ |- _ => inversion H; subst end. eexists. split; [apply peg_and_no; [eassumption|discriminate]|reflexivity].
    + match goal with H : peg _ (PNot _) _ _ _ _ |- _ => inversion H; subst end. eexists. split; [apply peg_and_no; [eassumption|discriminate]|reflexivity].
  - intros (r' & H & ->). inversion H; subst.
    + cbn [forget]. apply peg_not_ok. eapply peg_not_fail. eassumption.
    + destruct r' as [|j ts|j]; cbn [forget]; [|match goal with H : forall j ts, _ <> _ |- _ => destruct (H _ _ eq_refl) end|].
      * eapply peg_not_fail. apply peg_not_ok. eassumption.
      * apply peg_not_abort, peg_not_abort. assumption.
Qed.

(* ---------- constructors ---------- *)
Lemma seq_fold : forall E ps p i w r w', peg E (fold_left (fun acc q => PSeq acc q) ps p) i w r w' <-> in_sequence s check E (p :: ps) i w r w'.
Proof.
  induction ps as [|q ps IH]; intros p i w r w'; cbn [fold_left].
  - split.
    + intro H. destruct r as [|j ts|j]; [apply is_stop; [exact H|discriminate]| |apply is_stop; [exact H|discriminate]].
      rewrite <- (app_nil_r ts). eapply is_ok; [exact H|constructor].
    + intro H. inversion H; subst; [|assumption|].
      * match goal with H : in_sequence _ _ _ [] _ _ _ _ |- _ => inversion H; subst end. rewrite app_nil_r. assumption.
      * match goal with H : in_sequence _ _ _ [] _ _ _ _ |- _ => inversion H; subst end. match goal with H : forall j ts, _ <> _ |- _ => destruct (H _ _ eq_refl) end.
  - rewrite IH. split.
    + intro H. inversion H; subst.
      * match goal with H : peg _ (PSeq _ _) _ _ _ _ |- _ => inversion H; subst end; [|match goal with H : forall j ts, _ <> _ |- _ => destruct (H _ _ eq_refl) end ..].
        rewrite <- app_assoc. eapply is_ok; [eassumption|]. eapply is_ok; eassumption.
      * match goal with H : peg _ (PSeq _ _) _ _ _ _ |- _ => inversion H; subst end; [match goal with H : forall j ts, _ <> _ |- _ => destruct (H _ _ eq_refl) end| |].
        -- apply is_stop; assumption.
        -- eapply is_later; [eassumption| |assumption]. apply is_stop; assumption.
      * match goal with H : peg _ (PSeq _ _) _ _ _ _ |- _ => inversion H; subst end; [|match goal with H : forall j ts, RSucc _ _ <> _ |- _ => destruct (H _ _ eq_refl) end ..].
        eapply is_later; [eassumption| |assumption]. eapply is_later; eassumption.
    + intro H. inversion H; subst.
      * match goal with H : in_sequence _ _ _ (q :: ps) _ _ _ _ |- _ => inversion H; subst end; [|match goal with H : forall j ts, _ <> _ |- _ => destruct (H _ _ eq_refl) end ..].
        rewrite app_assoc. eapply is_ok; [eapply peg_seq_ok; eassumption|assumption].
      * apply is_stop; [|assumption]. apply peg_seq_no1; assumption.
      * match goal with H : in_sequence _ _ _ (q :: ps) _ _ _ _ |- _ => inversion H; subst end; [match goal with H : forall j ts, RSucc _ _ <> _ |- _ => destruct (H _ _ eq_refl) end| |].
        -- apply is_stop; [|assumption]. eapply peg_seq_no2; eassumption.
        -- eapply is_later; [eapply peg_seq_ok; eassumption|eassumption|assumption].
Qed.
Lemma concat_spec : forall E ps i w r w', peg E (p_concat ps) i w r w' <-> in_sequence s check E ps i w r w'.
Proof.
  intros E [|p ps] i w r w'; cbn [p_concat]; [|apply seq_fold].
  split; intro H; inversion H; subst; constructor.
Qed.
Lemma iter_fold : forall p n, Nat.iter n (fun acc => PSeq acc p) p = fold_left (fun acc q => PSeq acc q) (repeat p n) p.
Proof.
  intros p n. assert (G : forall n a, fold_left (fun acc q => PSeq acc q) (repeat p n) (PSeq a p) = PSeq (fold_left (fun acc q => PSeq acc q) (repeat p n) a) p).
  { induction n0 as [|m IH]; intro a; [reflexivity|]. cbn [repeat fold_left]. rewrite IH. reflexivity. }
  induction n as [|n IH]; [reflexivity|]. cbn [repeat fold_left]. rewrite G, <- IH. reflexivity.
Qed.
Lemma repeat_spec : forall E p n i w r w', peg E (p_repeat p n) i w r w' <-> in_sequence s check E (repeat p (Z.to_nat n)) i w r w'.
Proof.
  intros E p n i w r w'. unfold p_repeat. destruct (Z.leb_spec n 0) as [H|H].
  - replace (Z.to_nat n) with 0 by lia. split; intro H1; inversion H1; subst; constructor.
  - rewrite iter_fold, seq_fold. replace (Z.to_nat n) with (S (Z.to_nat n - 1)) at 2 by lia. reflexivity.
Qed.
Lemma or_fold : forall E i w r w' ps p, (forall w r w', peg E (fold_left (fun acc q => PAlt q acc) [] p) i w r w' <-> peg E p i w r w') ->
  peg E (fold_left (fun acc q => PAlt q acc) (rev ps) p) i w r w' <-> first_of s check E (ps ++ [p]) i w r w'.
Proof.
  intros E i w r w' ps p _. revert w r w'. induction ps as [|q ps IH]; intros w r w'; cbn [rev app].
  - cbn [fold_left]. split.
    + intro H. destruct r; [eapply fo_next; [exact H|constructor]|apply fo_here; [exact H|discriminate]|apply fo_here; [exact H|discriminate]].
    + intro H. inversion H; subst; [assumption|]. match goal with H : first_of _ _ _ [] _ _ _ _ |- _ => inversion H; subst end. assumption.
  - rewrite fold_left_app. cbn [fold_left]. split.
    + intro H. inversion H; subst; [apply fo_here; assumption|]. eapply fo_next; [eassumption|]. apply IH. assumption.
    + intro H. inversion H; subst; [apply peg_alt_1; assumption|]. eapply peg_alt_2; [eassumption|]. apply IH. assumption.
Qed.
Lemma or_spec : forall E ps i w r w', ps <> [] -> (peg E (p_or ps) i w r w' <-> first_of s check E ps i w r w').
Proof.
  intros E ps i w r w' H. destruct (exists_last H) as (l & a & ->). unfold p_or. rewrite rev_app_distr. cbn [rev app]. apply or_fold. reflexivity.
Qed.
Lemma star_spec : forall E p i w j ts w', peg E (PStar p) i w (RSucc j ts) w' <->
  exists n w1, in_sequence s check E (repeat p n) i w (RSucc j ts) w1 /\ peg E p j w1 RFail w'.
Proof.
  intros E p i w j ts w'. split.
  - intro H. remember (PStar p) as q eqn:Eq. remember (RSucc j ts) as r eqn:Er. revert j ts Er. induction H; try discriminate; injection Eq as ->; intros j' ts' Er; try discriminate.
    + injection Er as <- <-. exists 0, w. split; [constructor|assumption].
    + injection Er as <- <-. destruct (IHpeg2 eq_refl _ _ eq_refl) as (n & w3 & H1 & H2). exists (S n), w3. split; [|exact H2]. cbn [repeat]. eapply is_ok; eassumption.
  - intros (n & w1 & H & Hf). revert i w ts H. induction n as [|n IH]; intros i w ts H; cbn [repeat] in H; inversion H; subst.
    + apply peg_star_end. exact Hf.
    + eapply peg_star_more; [eassumption|]. apply IH. assumption.
    + match goal with H : forall j ts, _ <> _ |- _ => destruct (H _ _ eq_refl) end.
    + match goal with H : forall j ts, _ <> _ |- _ => destruct (H _ _ eq_refl) end.
Qed.
Lemma star_not_fail : forall E p i w w', ~ peg E (PStar p) i w RFail w'.
Proof.
  intros E p i w w' H. inversion H.
Qed.
Lemma opt_not_fail : forall E p i w w', ~ peg E (POpt p) i w RFail w'.
Proof.
  intros E p i w w' H. inversion H; subst. match goal with H : peg _ (PAlt _ _) _ _ _ _ |- _ => inversion H; subst end; [congruence|].
  match goal with H : peg _ PEmpty _ _ _ _ |- _ => inversion H end.
Qed.

(* ---------- search ---------- *)
Lemma fails_le : forall E p i w k w', fails_until s check E p i w k w' -> i <= k.
Proof. intros E p i w k w' H. induction H; lia. Qed.
Lemma search_spec : forall E p i w r w', i <= List.length s ->
  (peg E (PSearch p) i w r w' <->
   (r <> RFail /\ exists k wk, k <= List.length s /\ fails_until s check E p i w k wk /\ peg E p k wk r w') \/
   (r = RFail /\ fails_until s check E p i w (S (List.length s)) w')).
Proof.
  intros E p i w r w' Hi. split.
  - intro H. remember (PSearch p) as q eqn:Eq. induction H; try discriminate; injection Eq as ->.
    + left. split; [assumption|]. exists i, w. split; [exact Hi|]. split; [constructor|assumption].
    + destruct IHpeg2 as [(A & k & wk & B & C & D)|(A & B)]; [lia|reflexivity| |].
      * left. split; [exact A|]. exists k, wk. split; [exact B|]. split; [|exact D]. econstructor; eassumption.
      * right. split; [exact A|]. econstructor; eassumption.
    + right. split; [reflexivity|]. replace (S (List.length s)) with (S i) by lia. econstructor; [eassumption|constructor].
  - intros [(A & k & wk & B & C & D)|(-> & A)].
    + induction C as [i w|i w w1 k wk H1 H2 IH]; [apply peg_search_here; assumption|]. pose proof (fails_le _ _ _ _ _ _ H2).
      eapply peg_search_next; [exact H1|lia|]. apply IH; assumption || lia.
    + remember (S (List.length s)) as k eqn:Ek. induction A as [i w|i w w1 k wk H1 H2 IH]; [lia|]. destruct (Nat.eq_dec i (List.length s)) as [->|Hn].
      * subst k. inversion H2; subst; [|pose proof (fails_le _ _ _ _ _ _ H0); lia]. apply peg_search_end; [exact H1|lia].
      * eapply peg_search_next; [exact H1|lia|]. apply IH; [lia|exact Ek].
Qed.

(* ---------- the order of definitions ---------- *)
Definition frameR (F F' : frame) : Prop := forall x,
  match assoc F x, assoc F' x with Some b, Some b' => reorder b b' | None, None => True | _, _ => False end.
Definition env_R : env -> env -> Prop := Forall2 frameR.
Lemma frameR_refl : forall F, frameR F F. Proof. intros F x. destruct (assoc F x); [constructor|exact I]. Qed.
Lemma env_R_refl : forall E, env_R E E. Proof. induction E; constructor; [apply frameR_refl|assumption]. Qed.
Lemma assoc_perm : forall (F F' : frame) x, NoDup (map fst F) -> Permutation F F' -> assoc F x = assoc F' x.
Proof.
  intros F F' x Hn H. induction H as [|[k v] F F' H IH|[k v] [k' v'] F|F F' F'' H1 IH1 H2 IH2]; cbn [assoc map fst] in *.
  - reflexivity.
  - inversion Hn; subst. rewrite IH by assumption. reflexivity.
  - inversion Hn as [|? ? A B]; subst. destruct (String.eqb_spec k x), (String.eqb_spec k' x); try reflexivity. subst. destruct A. left. reflexivity.
  - rewrite IH1 by assumption. apply IH2. eapply Permutation_NoDup; [|exact Hn]. apply Permutation_map. exact H1.
Qed.
Lemma frameR_gram : forall defs defs' defs'', NoDup (map fst defs) -> Permutation defs defs' ->
  Forall2 (fun a b => fst a = fst b /\ reorder (snd a) (snd b)) defs' defs'' -> frameR defs defs''.
Proof.
  intros defs defs' defs'' Hn Hp H x. rewrite (assoc_perm _ _ x Hn Hp). clear Hp Hn. induction H as [|[k v] [k' v'] l l' [Hk Hv] H IH]; [exact I|]. cbn [assoc fst snd] in *. subst k'.
  destruct (String.eqb k x); [exact Hv|exact IH].
Qed.
Lemma lookup_R : forall E E' x, env_R E E' ->
  match lookup E x, lookup E' x with Some (b, E1), Some (b', E1') => reorder b b' /\ env_R E1 E1' | None, None => True | _, _ => False end.
Proof.
  intros E E' x H. induction H as [|F F' E E' H1 H2 IH]; [exact I|]. cbn [lookup]. pose proof (H1 x) as Hx. destruct (assoc F x), (assoc F' x); try contradiction; [|exact IH].
  split; [exact Hx|]. constructor; assumption.
Qed.
Lemma reorder_peg : forall E p i w r w', peg E p i w r w' -> forall E' p', env_R E E' -> reorder p p' -> peg E' p' i w r w'.
Proof.
  intros E p i w r w' H. induction H; intros E2 p2 HE HR; inversion HR; subst;
    try solve [econstructor; solve [eassumption | eauto using ro_refl]];
    try solve [econstructor; [eapply IHpeg1; eauto using reorder | eapply IHpeg2; eauto using reorder | assumption]];
    try solve [econstructor; [eapply IHpeg1; eauto using reorder | assumption | eapply IHpeg2; eauto using reorder]];
    try solve [econstructor; [eapply IHpeg1; eauto using reorder | eapply IHpeg2; eauto using reorder]];
    try solve [econstructor; [eapply IHpeg; eauto using reorder | eassumption]];
    try solve [econstructor; eapply IHpeg; eauto using reorder].
  - match goal with A : NoDup _, B : Permutation _ _, C : Forall2 _ _ _ |- _ => first [pose proof (frameR_gram _ _ _ A B C) as HF] end. pose proof (HF start) as Hs. rewrite H in Hs. destruct (assoc defs'' start) as [b'|] eqn:Eb; [|contradiction].
    econstructor; [exact Eb|]. apply IHpeg; [constructor; assumption|exact Hs].
  - econstructor; [exact H|]. apply IHpeg; [constructor; [apply frameR_refl|assumption]|constructor].
  - pose proof (lookup_R E E2 x HE) as HL. rewrite H in HL. destruct (lookup E2 x) as [[b' E1']|] eqn:Eb; [|contradiction]. destruct HL as [HL1 HL2].
    econstructor; [exact Eb|]. apply IHpeg; assumption.
Qed.
Lemma reorder_peg_back : forall E' p' i w r w', peg E' p' i w r w' -> forall E p, env_R E E' -> reorder p p' -> peg E p i w r w'.
Proof.
  intros E p i w r w' H. induction H; intros E2 p2 HE HR; inversion HR; subst;
    try solve [econstructor; solve [eassumption | eauto using ro_refl]];
    try solve [econstructor; [eapply IHpeg1; eauto using reorder | eapply IHpeg2; eauto using reorder | assumption]];
    try solve [econstructor; [eapply IHpeg1; eauto using reorder | assumption | eapply IHpeg2; eauto using reorder]];
    try solve [econstructor; [eapply IHpeg1; eauto using reorder | eapply IHpeg2; eauto using reorder]];
    try solve [econstructor; [eapply IHpeg; eauto using reorder | eassumption]];
    try solve [econstructor; eapply IHpeg; eauto using reorder].
  - match goal with A : NoDup _, B : Permutation _ _, C : Forall2 _ _ _ |- _ => first [pose proof (frameR_gram _ _ _ A B C) as HF] end. pose proof (HF start) as Hs. rewrite H in Hs. destruct (assoc defs0 start) as [b'|] eqn:Eb; [|contradiction].
    econstructor; [exact Eb|]. apply IHpeg; [constructor; assumption|exact Hs].
  - econstructor; [exact H|]. apply IHpeg; [constructor; [apply frameR_refl|assumption]|constructor].
  - pose proof (lookup_R E2 E x HE) as HL. rewrite H in HL. destruct (lookup E2 x) as [[b' E1']|] eqn:Eb; [|contradiction]. destruct HL as [HL1 HL2].
    econstructor; [exact Eb|]. apply IHpeg; assumption.
Qed.
End Spec.
