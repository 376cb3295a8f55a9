(** The grammar of bench/java.go takes every text. *)
From Coq Require Import ZArith String.
From Verif Require Import Base Model_Charset Model_Isa Model_Capture Model_VM Model_Pattern Model_Rope Model_Java Spec_Peg Spec_Run Spec_Wf Spec_Rope Spec_Java Proof_Charset Proof_Capture Proof_Wf Proof_Rope Proof_Rope2.
Local Open Scope nat_scope.

(** no errors are reported inside, and no grammars are nested *)
Fixpoint silent (p : pattern) : bool :=
  match p with
  | PAlt l r | PSeq l r => silent l && silent r
  | PStar p | PPlus p | POpt p | PNot p | PAnd p | PCap p _ | PMemo p _ | PCheck p _ _ _ | PSearch p => silent p
  | PGrammar _ _ | PError _ _ => false
  | PNonTerm _ (Some q) => silent q
  | _ => true
  end.
Definition silent_env (E : env) : Prop := Forall (Forall (fun kq => silent (snd kq) = true)) E.

Lemma silent_assoc : forall F x b, Forall (fun kq : string * pattern => silent (snd kq) = true) F -> assoc F x = Some b -> silent b = true.
Proof.
  induction F as [|[k q] F IH]; intros x b H A; [discriminate|]. inversion H; subst. cbn [assoc] in A. destruct (String.eqb k x); [injection A as <-; assumption|eauto].
Qed.
Lemma silent_lookup : forall E x b E', silent_env E -> lookup E x = Some (b, E') -> silent b = true /\ silent_env E'.
Proof.
  induction E as [|F E IH]; intros x b E' H L; [discriminate|]. cbn [lookup] in L. inversion H as [|? ? H1 H2]; subst. destruct (assoc F x) as [q|] eqn:A.
  - injection L as <- <-. split; [eapply silent_assoc; eassumption|exact H].
  - eapply IH; eassumption.
Qed.

Section Java.
Variable s : list byte.
Variable CS : Type.
Variable check : nat -> CS -> list byte -> list byte -> nat -> Z -> Z -> CS * option nat.

Lemma silent_peg : forall E p i w r w', peg s check E p i w r w' -> silent p = true -> silent_env E -> (forall j, r <> RAbort j) /\ fst w' = fst w.
Proof.
  induction 1; intros Sp SE; cbn [silent] in *; try discriminate Sp;
    try (apply andb_prop in Sp as [Sp1 Sp2]);
    repeat match goal with H : ?a = true -> silent_env _ -> _, K : ?a = true |- _ => specialize (H K SE); destruct H end;
    cbn [fst] in *; try solve [split; [congruence|congruence]]; try solve [split; [assumption|congruence]].
  - apply IHpeg; [rewrite Sp; reflexivity|exact SE].
  - apply IHpeg; [rewrite Sp; reflexivity|exact SE].
  - destruct (silent_lookup _ _ _ _ SE H). auto.
Qed.

Lemma star_not_fail : forall E p i w w', ~ peg s check E (PStar p) i w RFail w'.
Proof. intros E p i w w' H. inversion H. Qed.
Lemma memo_inv : forall E p id i w r w', peg s check E (PMemo p id) i w r w' -> peg s check E p i w r w'.
Proof. intros E p id i w r w' H. inversion H; subst; assumption. Qed.
Lemma nt_inv : forall E x i w r w', peg s check E (PNonTerm x None) i w r w' -> exists b E', lookup E x = Some (b, E') /\ peg s check E' b i w r w'.
Proof. intros E x i w r w' H. inversion H; subst; eauto. Qed.
Lemma alt_fail : forall E p q i w w', peg s check E (PAlt p q) i w RFail w' -> exists w1, peg s check E q i w1 RFail w'.
Proof. intros E p q i w w' H. inversion H; subst; [congruence|eauto]. Qed.
Lemma alt_succ : forall E p q i w j ts w', peg s check E (PAlt p q) i w (RSucc j ts) w' ->
  peg s check E p i w (RSucc j ts) w' \/ exists w1, peg s check E q i w1 (RSucc j ts) w'.
Proof. intros E p q i w j ts w' H. inversion H; subst; eauto. Qed.
Lemma seq_fail : forall E p q i w w', peg s check E (PSeq p q) i w RFail w' ->
  peg s check E p i w RFail w' \/ exists j w1, peg s check E q j w1 RFail w'.
Proof. intros E p q i w w' H. inversion H; subst; eauto. Qed.
Lemma seq_succ : forall E p q i w k ts w', peg s check E (PSeq p q) i w (RSucc k ts) w' ->
  exists j us vs w1, peg s check E p i w (RSucc j us) w1 /\ peg s check E q j w1 (RSucc k vs) w' /\ ts = us ++ vs.
Proof.
  intros E p q i w k ts w' H. inversion H; subst; [do 4 eexists; eauto| |]; match goal with N : forall j ts, _ <> _ |- _ => destruct (N _ _ eq_refl) end.
Qed.
Lemma cap_succ : forall E p id i w j ts w', peg s check E (PCap p id) i w (RSucc j ts) w' ->
  exists us, ts = [CNode id i (j - i) us] /\ peg s check E p i w (RSucc j us) w'.
Proof.
  intros E p id i w j ts w' H. inversion H; subst; [eauto|]. match goal with N : forall j ts, _ <> _ |- _ => destruct (N _ _ eq_refl) end.
Qed.
Lemma lit_succ : forall E str i w j ts w', peg s check E (PLit str) i w (RSucc j ts) w' -> firstn (List.length str) (skipn i s) = str /\ j = i + List.length str /\ ts = [].
Proof. intros E str i w j ts w' H. inversion H; subst; auto. Qed.
Lemma dot_succ : forall E i w j ts w', peg s check E (PDot x01) i w (RSucc j ts) w' -> i + 1 <= List.length s /\ j = i + 1 /\ ts = [].
Proof. intros E i w j ts w' H. inversion H; subst. change (N.to_nat (bN x01)) with 1 in *. auto. Qed.
(** an item is there unless the text ends *)
Lemma item_fails : forall E i w w', peg s check E (PMemo j_item 0) i w RFail w' -> List.length s <= i.
Proof.
  intros E i w w' H. apply memo_inv in H. unfold j_item, p_or in H. cbn [rev app fold_left] in H. apply alt_fail in H as [w1 H].
  unfold p_concat in H. cbn [fold_left] in H. apply seq_fail in H as [H|(j & w2 & H)].
  - inversion H; subst. change (N.to_nat (bN x01)) with 1 in *. lia.
  - destruct (star_not_fail _ _ _ _ _ H).
Qed.

Lemma not_succ : forall E p i w j ts w', peg s check E (PNot p) i w (RSucc j ts) w' -> j = i /\ ts = [] /\ exists w1, peg s check E p i w RFail w1.
Proof. intros E p i w j ts w' H. inversion H; subst; eauto. Qed.
Lemma star_all : forall (Q : ctree -> Prop) E p i w r w', peg s check E (PStar p) i w r w' ->
  (forall i w j us w1, peg s check E p i w (RSucc j us) w1 -> Forall Q us) -> forall j ts, r = RSucc j ts -> Forall Q ts.
Proof.
  intros Q E p i w r w' H HQ. remember (PStar p) as sp eqn:Ep. induction H; try discriminate Ep; injection Ep as ->; intros j0 ts0 Er; try discriminate Er; injection Er as <- <-.
  - constructor.
  - apply Forall_app. split; [eapply HQ; eassumption|exact (IHpeg2 eq_refl HQ _ _ eq_refl)].
Qed.
(** a repetition goes on as long as its body matches *)
Lemma star_ends : forall E p i w r w', peg s check E (PStar p) i w r w' -> forall j ts, r = RSucc j ts -> exists w1 w2, peg s check E p j w1 RFail w2.
Proof.
  intros E p i w r w' H. remember (PStar p) as sp eqn:Ep. induction H; try discriminate Ep; injection Ep as ->; intros j0 ts0 Er; try discriminate Er; injection Er as <- <-; eauto.
Qed.
Lemma part_app : forall i a b, part s i (a + b) = part s i a ++ part s (i + a) b.
Proof.
  intros i a b. unfold part.
  assert (S_ : skipn (i + a) s = skipn a (skipn i s)).
  { generalize s. induction i as [|i IH]; intros l; [reflexivity|]. destruct l as [|x l]; [cbn; rewrite skipn_nil; reflexivity|]. cbn. apply IH. }
  rewrite S_. clear S_.
  generalize (skipn i s). induction a as [|a IH]; intros l; [reflexivity|]. destruct l as [|x l]; [cbn; rewrite firstn_nil; reflexivity|]. cbn. rewrite IH. reflexivity.
Qed.
Lemma part_len : forall i n, i + n <= List.length s -> List.length (part s i n) = n.
Proof. intros i n H. unfold part. rewrite firstn_length, skipn_length. lia. Qed.
Lemma block_star : forall E c i w r w', peg s check E (PStar (PSeq (PNot (PLit [c])) (PDot x01))) i w r w' ->
  forall j ts, r = RSucc j ts -> i <= j /\ ts = [] /\ ~ In c (part s i (j - i)).
Proof.
  intros E c i w r w' H. remember (PStar _) as sp eqn:Ep. induction H; try discriminate Ep; injection Ep as ->; intros j0 ts0 Er; try discriminate Er; injection Er as <- <-.
  - rewrite Nat.sub_diag. cbn. auto.
  - clear IHpeg1. destruct (IHpeg2 eq_refl _ _ eq_refl) as (L & -> & N). apply seq_succ in H as (m & us1 & vs & w3 & A & B & ->).
    apply not_succ in A as (-> & -> & w4 & A). apply dot_succ in B as (B & -> & ->). split; [lia|]. split; [reflexivity|].
    replace (k - i) with (1 + (k - (i + 1))) by lia. rewrite part_app. intro I. apply in_app_iff in I as [I|I]; [|apply N; exact I].
    inversion A; subst. match goal with NE : firstn _ _ <> _ |- _ => apply NE end. clear - I B. unfold part in I. cbn [List.length]. destruct (skipn i s) as [|x l]; [destruct I|]. cbn in I |- *. destruct I as [<-|[]]. reflexivity.
Qed.
End Java.

Section Pieces.
Variable s : list byte.
Notation peg := (peg s word_check).
Notation E0 := [j_defs].
Lemma word_ok : check_ok word_check s.
Proof. intros k cs bs j id fl cs' n H L. unfold word_check in H. destruct (existsb _ _); [|discriminate]. injection H as _ <-. lia. Qed.
Lemma in_text : forall E p i w j ts w', peg E p i w (RSucc j ts) w' -> i <= List.length s -> i <= j /\ j <= List.length s.
Proof.
  intros E p i w j ts w' H L. pose proof (peg_move _ _ _ _ _ _ _ _ _ H) as [A _]. pose proof (peg_inside _ _ _ _ _ _ _ _ _ word_ok H L) as [B _]. auto.
Qed.
(** no captures inside of words *)
Fixpoint bare (p : pattern) : bool :=
  match p with
  | PAlt l r | PSeq l r => bare l && bare r
  | PStar p | PNot p | PMemo p _ | PCheck p _ _ _ => bare p
  | PClass _ | PLit _ | PDot _ | PEmpty => true
  | _ => false
  end.
Lemma bare_peg : forall E p i w r w', peg E p i w r w' -> bare p = true -> forall j ts, r = RSucc j ts -> ts = [].
Proof.
  induction 1; intros B j0 ts0 Er; cbn [bare] in *; try discriminate B; try discriminate Er;
    try (apply andb_prop in B as [B1 B2]); try (injection Er as <- <-); subst; try reflexivity;
    try match goal with N : forall j ts, RSucc _ _ <> _ |- _ => destruct (N _ _ eq_refl) end; eauto.
  - rewrite (IHpeg1 B1 _ _ eq_refl), (IHpeg2 B2 _ _ eq_refl). reflexivity.
  - rewrite (IHpeg1 B _ _ eq_refl), (IHpeg2 B _ _ eq_refl). reflexivity.
Qed.
Lemma word_parts : forall E i w j ts w', i <= List.length s -> peg E (word_match 0) i w (RSucc j ts) w' -> ts = [] /\ In (part s i (j - i)) j_words.
Proof.
  intros E i w j ts w' L H. split; [eapply bare_peg; [exact H|reflexivity|reflexivity]|].
  unfold word_match in H. inversion H; subst; [|match goal with N : forall j ts, RSucc _ _ <> _ |- _ => destruct (N _ _ eq_refl) end].
  match goal with K : word_check _ _ _ _ _ _ _ = _ |- _ => unfold word_check in K; destruct (existsb _ _) eqn:X; [|discriminate K]; injection K as _ <- end.
  rewrite Nat.add_0_r. apply existsb_exists in X as (x & Hx & X). destruct (list_eq_dec _ _ _) as [->|]; [exact Hx|discriminate X].
Qed.
Lemma part_cons : forall i n x l, skipn i s = x :: l -> part s i (S n) = x :: part s (i + 1) n.
Proof. intros i n x l H. change (S n) with (1 + n). rewrite part_app. unfold part at 1. rewrite H. reflexivity. Qed.
Lemma skipn_1 : forall i x l, skipn i s = x :: l -> skipn (i + 1) s = l.
Proof. clear. generalize s. intros t i. revert t. induction i as [|i IH]; intros [|y t] x l H; cbn in *; try discriminate H; [injection H as -> ->; reflexivity|eapply IH; eassumption]. Qed.
Lemma class_succ : forall E c i w j ts w', peg E (PClass c) i w (RSucc j ts) w' -> exists x l, skipn i s = x :: l /\ cs_has c x = true /\ j = i + 1 /\ ts = [].
Proof.
  intros E c i w j ts w' H. inversion H; subst. match goal with K : nth_error s i = Some ?x |- _ => exists x end.
  match goal with K : nth_error s i = Some ?x |- _ => rename K into N end. clear H. exists (skipn (i + 1) s). split; [|split; [assumption|split; [lia|reflexivity]]].
  revert N. clear. generalize s. induction i as [|i IH]; intros [|y t] N; cbn in *; try discriminate N; [injection N as ->; reflexivity|apply IH; exact N].
Qed.
Definition j_escape : pattern := p_concat [PLit [x5c]; PClass (cs_new escapes)].
Lemma escape_succ : forall i w j ts w', peg E0 (nt "Escape") i w (RSucc j ts) w' ->
  ts = [] /\ j = i + 2 /\ exists e l, skipn i s = x5c :: e :: l /\ existsb (byte_eqb e) escapes = true.
Proof.
  intros i w j ts w' H. apply nt_inv in H as (b & E & Lk & H). assert (K : lookup E0 "Escape" = Some (j_escape, E0)) by reflexivity. rewrite K in Lk. injection Lk as <- <-.
  unfold j_escape, p_concat in H. cbn [fold_left] in H. apply seq_succ in H as (k & us & vs & w1 & A & B & ->).
  apply lit_succ in A as (A & -> & ->). apply class_succ in B as (e & l & B & C & -> & ->). cbn [List.length] in *. split; [reflexivity|]. split; [lia|]. exists e, l.
  rewrite cs_new_has in C. split; [|exact C]. destruct (skipn i s) as [|x t] eqn:S_; [discriminate A|]. cbn in A. injection A as ->. rewrite (skipn_1 _ _ _ S_) in B. subst t. reflexivity.
Qed.
Lemma escape_fail : forall i w w' e l, peg E0 (nt "Escape") i w RFail w' -> skipn i s = x5c :: e :: l -> existsb (byte_eqb e) escapes = false.
Proof.
  intros i w w' e l H S_. apply nt_inv in H as (b & E & Lk & H). assert (K : lookup E0 "Escape" = Some (j_escape, E0)) by reflexivity. rewrite K in Lk. injection Lk as <- <-.
  unfold j_escape, p_concat in H. cbn [fold_left] in H. pose proof (skipn_1 _ _ _ S_) as S1. assert (HH : peg E0 (PLit [x5c]) i w RFail w' \/ exists j us w1, peg E0 (PLit [x5c]) i w (RSucc j us) w1 /\ peg E0 (PClass (cs_new escapes)) j w1 RFail w') by (inversion H; subst; [right; eauto|left; assumption|left; assumption] || (inversion H; subst; eauto 6)).
  destruct HH as [HF|(j & us & w1 & HS & HC)]; [exfalso; inversion HF; subst; match goal with N : firstn _ _ <> _ |- _ => apply N end; rewrite S_; reflexivity|].
  apply lit_succ in HS as (_ & -> & _). cbn [List.length] in *. inversion HC; subst.
  - match goal with N : nth_error s (i + 1) = Some _ |- _ => rename N into N1 end.
      assert (X : nth_error s (i + 1) = Some e). { revert S1. clear. generalize s. generalize (i + 1). induction n as [|n IH]; intros [|y t] H; cbn in *; try discriminate H; [injection H as -> ->; reflexivity|apply IH; exact H]. }
      rewrite X in N1. injection N1 as <-. rewrite <- cs_new_has. assumption.
  - exfalso. match goal with N : nth_error s (i + 1) = None |- _ => apply nth_error_None in N end. apply (f_equal (@List.length byte)) in S1. rewrite skipn_length in S1. cbn in S1. lia.
Qed.
Lemma esc_star : forall i w r w', peg E0 (PStar (p_or [nt "Escape"; p_concat [PNot (PLit [x22]); PDot x01]])) i w r w' ->
  forall j ts, r = RSucc j ts -> firstn 1 (skipn j s) = [x22] -> ts = [] /\ i <= j /\ closes (part s i (j + 1 - i)).
Proof.
  intros i w r w' H. remember (PStar _) as sp eqn:Ep. remember E0 as E eqn:EE. induction H; try discriminate Ep; injection Ep as ->; subst E; intros j0 ts0 Er Q; try discriminate Er; injection Er as <- <-.
  - split; [reflexivity|]. split; [lia|]. replace (i + 1 - i) with 1 by lia. unfold part. rewrite Q. cbn. reflexivity.
  - clear IHpeg1. destruct (IHpeg2 eq_refl eq_refl _ _ eq_refl Q) as (-> & L & C). unfold p_or in H. cbn [rev app fold_left] in H.
    inversion H; subst.
    + match goal with P : peg (nt "Escape") _ _ _ _ |- _ => idtac | P : Spec_Peg.peg _ _ _ (nt "Escape") _ _ _ _ |- _ => apply escape_succ in P as (-> & -> & e & l & S_ & X) end.
      split; [reflexivity|]. split; [lia|]. replace (k + 1 - i) with (S (S (k + 1 - (i + 2)))) by lia. rewrite (part_cons _ _ _ _ S_), (part_cons _ _ _ _ (skipn_1 _ _ _ S_)).
      replace (i + 1 + 1) with (i + 2) by lia. cbn [closes]. rewrite X. exact C.
    + match goal with P : Spec_Peg.peg _ _ _ (nt "Escape") _ _ RFail _ |- _ => rename P into F end. clear H. match goal with P : Spec_Peg.peg _ _ _ _ i _ (RSucc _ _) _ |- _ => rename P into D end.
      unfold p_concat in D. cbn [fold_left] in D. apply seq_succ in D as (m & us1 & vs & w7 & A & B & ->). apply not_succ in A as (-> & -> & w8 & A). apply dot_succ in B as (B & -> & ->).
      split; [reflexivity|]. split; [lia|]. destruct (skipn i s) as [|x l] eqn:S_; [exfalso; apply (f_equal (@List.length byte)) in S_; rewrite skipn_length in S_; cbn in S_; lia|].
      assert (NX : byte_eqb x x22 = false).
      { inversion A; subst. match goal with N : firstn _ _ <> _ |- _ => rename N into NE end. rewrite S_ in NE. cbn in NE. destruct (byte_eqb x x22) eqn:Y; [|reflexivity]. apply byte_eqb_eq in Y. subst x. destruct (NE eq_refl). }
      replace (k + 1 - i) with (S (k + 1 - (i + 1))) by lia. rewrite (part_cons _ _ _ _ S_). cbn [closes]. rewrite NX.
      destruct (part s (i + 1) (k + 1 - (i + 1))) as [|e t] eqn:Pt; [destruct C|].
      assert (X : byte_eqb x x5c && existsb (byte_eqb e) escapes = false).
      { destruct (byte_eqb x x5c) eqn:Y; [|reflexivity]. apply byte_eqb_eq in Y. subst x. cbn [andb]. destruct l as [|e' l].
        - unfold part in Pt. rewrite (skipn_1 _ _ _ S_), firstn_nil in Pt. discriminate Pt.
        - rewrite <- (escape_fail _ _ _ _ _ F S_). unfold part in Pt. rewrite (skipn_1 _ _ _ S_) in Pt. destruct (k + 1 - (i + 1)); [discriminate Pt|]. cbn in Pt. injection Pt as -> _. reflexivity. }
      rewrite X. exact C.
Qed.
Lemma block_esc : forall i w j ts w', i <= List.length s -> peg E0 (block_patt [x22] [x22] (Some (nt "Escape"))) i w (RSucc j ts) w' ->
  ts = [] /\ exists t, part s i (j - i) = x22 :: t /\ closes t.
Proof.
  intros i w j ts w' L H. unfold block_patt, p_concat in H. cbn [fold_left] in H.
  apply seq_succ in H as (k & us & vs & w1 & A & B & ->). apply seq_succ in A as (m & us1 & vs1 & w2 & A & C & ->).
  apply lit_succ in A as (A & -> & ->). apply lit_succ in B as (B & -> & ->). cbn [List.length] in *.
  destruct (esc_star _ _ _ _ C _ _ eq_refl B) as (-> & C1 & C2). split; [reflexivity|]. exists (part s (i + 1) (k + 1 - (i + 1))). split; [|exact C2].
  destruct (skipn i s) as [|x l] eqn:S_; [discriminate A|]. cbn in A. injection A as ->. replace (k + 1 - i) with (S (k + 1 - (i + 1))) by lia. apply (part_cons _ _ _ _ S_).
Qed.
Lemma block_line : forall i w j ts w', i <= List.length s -> peg E0 (block_patt [x2f; x2f] [x0a] None) i w (RSucc j ts) w' ->
  ts = [] /\ exists b, part s i (j - i) = [x2f; x2f] ++ b ++ [x0a] /\ ~ In x0a b.
Proof.
  intros i w j ts w' L H. unfold block_patt, p_concat in H. cbn [fold_left] in H.
  apply seq_succ in H as (k & us & vs & w1 & A & B & ->). apply seq_succ in A as (m & us1 & vs1 & w2 & A & C & ->).
  pose proof (in_text _ _ _ _ _ _ _ A L) as [A1 A2].
  apply lit_succ in A as (A & -> & ->). apply lit_succ in B as (B & -> & ->). destruct (block_star _ _ _ _ _ _ _ _ _ C _ _ eq_refl) as (C1 & -> & N). cbn [List.length] in *.
  split; [reflexivity|]. exists (part s (i + 2) (k - (i + 2))). split; [|exact N].
  replace (k + 1 - i) with (2 + ((k - (i + 2)) + 1)) by lia. rewrite !part_app. replace (i + 2 + (k - (i + 2))) with k by lia. unfold part at 1 3. rewrite A, B. reflexivity.
Qed.
Lemma class_letter : forall x, cs_has j_letters x = true -> letter x.
Proof.
  intros x H. unfold j_letters in H. rewrite cs_add_has, !cs_range_has in H. unfold letter. apply orb_prop in H as [H|H]; apply andb_prop in H as [H1 H2]; apply N.leb_le in H1; apply N.leb_le in H2; [left|right; left]; split; assumption.
Qed.
Lemma alnum_byte : forall x, cs_has (cs_add j_letters (cs_range x30 x39)) x = true -> letter x \/ digit x.
Proof.
  intros x H. rewrite cs_add_has in H. apply orb_prop in H as [H|H]; [left; apply class_letter; exact H|]. right. rewrite cs_range_has in H. apply andb_prop in H as [H1 H2]. apply N.leb_le in H1; apply N.leb_le in H2. split; assumption.
Qed.
Lemma under_succ : forall E i w j ts w', peg E (lit "_") i w (RSucc j ts) w' -> exists l, skipn i s = x5f :: l /\ j = i + 1 /\ ts = [].
Proof.
  intros E i w j ts w' H. apply lit_succ in H as (H & -> & ->). change (list_byte_of_string "_") with [x5f] in *. cbn [List.length] in *. destruct (skipn i s) as [|x l]; [discriminate H|]. cbn in H. injection H as ->. eauto.
Qed.
Lemma word_star : forall E i w r w', peg E (PStar (p_or [j_alnum; lit "_"])) i w r w' -> forall j ts, r = RSucc j ts -> i <= j /\ Forall (fun b => letter b \/ digit b) (part s i (j - i)).
Proof.
  intros E i w r w' H. remember (PStar _) as sp eqn:Ep. induction H; try discriminate Ep; injection Ep as ->; intros j0 ts0 Er; try discriminate Er; injection Er as <- <-.
  - rewrite Nat.sub_diag. cbn. auto.
  - clear IHpeg1. destruct (IHpeg2 eq_refl _ _ eq_refl) as (L & N). unfold p_or in H. cbn [rev app fold_left] in H.
    assert (X : exists x l, skipn i s = x :: l /\ (letter x \/ digit x) /\ j = i + 1).
    { apply alt_succ in H as [H|(w3 & H)]; [apply class_succ in H as (x & l & S_ & X & -> & _); exists x, l; split; [exact S_|]; split; [apply alnum_byte; exact X|reflexivity]|].
      apply under_succ in H as (l & S_ & -> & _). exists x5f, l. split; [exact S_|]. split; [left; right; right; reflexivity|reflexivity]. }
    destruct X as (x & l & S_ & X & ->). split; [lia|]. replace (k - i) with (S (k - (i + 1))) by lia. rewrite (part_cons _ _ _ _ S_). constructor; assumption.
Qed.
Lemma word_name : forall E i w j ts w', peg E j_word i w (RSucc j ts) w' -> i < j /\ exists c r, part s i (j - i) = c :: r /\ letter c /\ Forall (fun b => letter b \/ digit b) r.
Proof.
  intros E i w j ts w' H. unfold j_word, p_concat in H. cbn [fold_left] in H. apply seq_succ in H as (m & us & vs & w1 & A & B & _). destruct (word_star _ _ _ _ _ B _ _ eq_refl) as (L & F).
  unfold p_or in A. cbn [rev app fold_left] in A.
  assert (X : exists x l, skipn i s = x :: l /\ letter x /\ m = i + 1).
  { apply alt_succ in A as [A|(w3 & A)]; [apply class_succ in A as (x & l & S_ & X & -> & _); exists x, l; split; [exact S_|]; split; [apply class_letter; exact X|reflexivity]|].
    apply under_succ in A as (l & S_ & -> & _). exists x5f, l. split; [exact S_|]. split; [right; right; reflexivity|reflexivity]. }
  destruct X as (x & l & S_ & X & ->). split; [lia|]. replace (j - i) with (S (j - (i + 1))) by lia. rewrite (part_cons _ _ _ _ S_). eauto.
Qed.
Lemma name_next : forall E i w j ts w', i <= List.length s -> peg E (p_concat [PCap (nt "Identifier") cap_func_name; lit "("]) i w (RSucc j ts) w' -> E = E0 ->
  exists k, ts = [CNode cap_func_name i (k - i) []] /\ i < k /\ k <= List.length s /\ nth_error s k = Some x28 /\
    exists c r, part s i (k - i) = c :: r /\ letter c /\ Forall (fun b => letter b \/ digit b) r.
Proof.
  intros E i w j ts w' L H ->. unfold p_concat in H. cbn [fold_left] in H. apply seq_succ in H as (k & us & vs & w1 & A & B & ->).
  apply cap_succ in A as (us1 & -> & A). apply nt_inv in A as (b & E & Lk & A). assert (K : lookup E0 "Identifier" = Some (j_word, E0)) by reflexivity. rewrite K in Lk. injection Lk as <- <-.
  pose proof (in_text _ _ _ _ _ _ _ A L) as [A1 A2]. rewrite (bare_peg _ _ _ _ _ _ A eq_refl _ _ eq_refl).
  apply lit_succ in B as (B & -> & ->). destruct (word_name _ _ _ _ _ _ A) as [I_ W]. exists k. split; [reflexivity|]. split; [exact I_|]. split; [exact A2|]. split; [|exact W].
  change (List.length (list_byte_of_string "(")) with 1 in B. change (list_byte_of_string "(") with [x28] in B.
  clear - B. revert B. generalize s. induction k as [|k IH]; intros [|x l] B; cbn in *; try discriminate B; [injection B as ->; reflexivity|apply IH; exact B].
Qed.
Lemma token_pieces : forall i w j ts w', i <= List.length s -> peg E0 (nt "Token") i w (RSucc j ts) w' -> Forall (java_piece s) ts.
Proof.
  intros i w j ts w' L H. pose proof (in_text _ _ _ _ _ _ _ H L) as [Lj1 Lj2].
  assert (K : forall x b, lookup E0 x = Some (b, E0) -> forall w0 r w1, peg E0 (nt x) i w0 r w1 -> peg E0 b i w0 r w1).
  { intros x b Hx w0 r w1 P. apply nt_inv in P as (b0 & E & Lk & P). rewrite Hx in Lk. injection Lk as <- <-. exact P. }
  assert (C1 : forall id, java_piece s (CNode id i (j - i) []) -> Forall (java_piece s) [CNode id i (j - i) []]) by (intros; constructor; [assumption|constructor]).
  apply (K "Token"%string j_token eq_refl) in H. unfold j_token, p_or in H. cbn [rev app fold_left] in H.
  apply alt_succ in H as [H|(w1 & H)]; [|apply alt_succ in H as [H|(w2 & H)]; [|apply alt_succ in H as [H|(w3 & H)]; [|apply alt_succ in H as [H|(w4 & H)]]]].
  - apply (K "Comment"%string (p_or [nt "LineComment"; nt "LongComment"]) eq_refl) in H. unfold p_or in H. cbn [rev app fold_left] in H. apply alt_succ in H as [H|(w1 & H)].
    + apply (K "LineComment"%string _ eq_refl) in H. apply cap_succ in H as (us & -> & H). apply block_line in H as (-> & H); [|exact L].
      apply C1. split; [reflexivity|]. split; [lia|]. left. split; [reflexivity|exact H].
    + apply (K "LongComment"%string _ eq_refl) in H. rewrite (bare_peg _ _ _ _ _ _ H eq_refl _ _ eq_refl). constructor.
  - apply (K "FuncQual"%string _ eq_refl) in H. apply cap_succ in H as (us & -> & H). apply word_parts in H as (-> & H); [|exact L].
    apply C1. split; [reflexivity|]. split; [lia|]. do 2 right. left. split; [reflexivity|exact H].
  - apply (K "FuncName"%string _ eq_refl) in H. apply name_next in H as (k & -> & I1 & I2 & I3 & I4); [|exact L|reflexivity].
    constructor; [|constructor]. split; [reflexivity|]. split; [lia|]. right. left. split; [reflexivity|]. split; [exact I4|]. replace (i + (k - i)) with k by lia. exact I3.
  - apply (K "String"%string _ eq_refl) in H. apply cap_succ in H as (us & -> & H). apply block_esc in H as (-> & H); [|exact L].
    apply C1. split; [reflexivity|]. split; [lia|]. do 3 right. left. split; [reflexivity|exact H].
  - apply (K "Newline"%string _ eq_refl) in H. apply cap_succ in H as (us & -> & H). apply lit_succ in H as (H & -> & ->). cbn [List.length] in *.
    apply C1. split; [reflexivity|]. split; [lia|]. do 4 right. split; [reflexivity|]. replace (i + 1 - i) with 1 by lia. exact H.
Qed.
Lemma bare_rest : forall i w j ts w', peg E0 (PStar (p_concat [PNot (nt "Token"); PDot x01])) i w (RSucc j ts) w' -> ts = [].
Proof.
  intros i w j ts w' H. assert (F : Forall (fun _ => False) ts).
  { eapply star_all; [exact H| |reflexivity]. intros i0 w0 j0 us w1 P. unfold p_concat in P. cbn [fold_left] in P. apply seq_succ in P as (k & us1 & vs & w2 & A & B & ->).
    apply not_succ in A as (_ & -> & _). apply dot_succ in B as (_ & _ & ->). constructor. }
  destruct ts; [reflexivity|]. inversion F. contradiction.
Qed.
Lemma item_pieces : forall i w j ts w', i <= List.length s -> peg E0 (PMemo j_item 0) i w (RSucc j ts) w' -> Forall (java_piece s) ts.
Proof.
  intros i w j ts w' L H. apply memo_inv in H. unfold j_item, p_or in H. cbn [rev app fold_left] in H. apply alt_succ in H as [H|(w1 & H)]; [eapply token_pieces; eassumption|].
  unfold p_concat in H. cbn [fold_left] in H. apply seq_succ in H as (k & us & vs & w2 & A & B & ->). apply dot_succ in A as (_ & _ & ->). rewrite (bare_rest _ _ _ _ _ B). constructor.
Qed.
Lemma items_pieces : forall i w r w', peg E0 (PStar (PMemo j_item 0)) i w r w' -> forall j ts, r = RSucc j ts -> i <= List.length s -> Forall (java_piece s) ts.
Proof.
  intros i w r w' H. remember (PStar _) as sp eqn:Ep. remember E0 as E eqn:EE. induction H; try discriminate Ep; injection Ep as ->; subst E; intros j0 ts0 Er L; try discriminate Er; injection Er as <- <-.
  - constructor.
  - apply Forall_app. split; [eapply item_pieces; eassumption|]. eapply (IHpeg2 eq_refl eq_refl); [reflexivity|]. eapply in_text; eassumption.
Qed.
Lemma java_pieces : forall w j ts w', peg [] j_grammar 0 w (RSucc j ts) w' -> Forall (java_piece s) ts.
Proof.
  intros w j ts w' H. unfold j_grammar in H. inversion H; subst. match goal with K : assoc j_defs _ = Some _ |- _ => injection K as <- end. eapply items_pieces; [eassumption|reflexivity|lia].
Qed.
End Pieces.

Lemma java_wf : well_formed ([], j_grammar).
Proof. apply (wf_check_sound 40). vm_compute. reflexivity. Qed.
Lemma java_supported : supported j_grammar.
Proof. split; [vm_compute; tauto|]. split; [|vm_compute; tauto]. vm_compute. split; [|tauto]. repeat constructor; cbn; intuition discriminate. Qed.
Lemma java_silent : silent_env [j_defs].
Proof. repeat constructor. Qed.
Lemma java_whole : forall s CS check w r w', peg s (CS:=CS) check [] j_grammar 0 w r w' -> check_ok check s -> fst w' = fst w /\ exists ts, r = RSucc (List.length s) ts.
Proof.
  intros s CS check w r w' H Hck. unfold j_grammar in H. inversion H; subst. match goal with K : assoc j_defs _ = Some _ |- _ => injection K as <- end.
  match goal with K : peg _ _ [j_defs] _ _ _ _ _ |- _ => rename K into P end.
  destruct (silent_peg _ _ _ _ _ _ _ _ _ P eq_refl java_silent) as [N F]. split; [exact F|].
  destruct r as [|j ts|j]; [destruct (star_not_fail _ _ _ _ _ _ _ _ P)| |destruct (N j eq_refl)].
  exists ts. f_equal. destruct (star_ends _ _ _ _ _ _ _ _ _ P _ _ eq_refl) as (w1 & w2 & Q). apply item_fails in Q.
  pose proof (peg_inside _ _ _ _ _ _ _ _ _ Hck P (Nat.le_0_l _)) as [B _]. lia.
Qed.

(* ---------- the ends of comments ---------- *)
Lemma comment_end : forall r s i n, made (line_ends x0a) r s -> java_piece s (CNode cap_line_comment i n []) ->
  exists l, rp_line_col_at r i = Some l /\ rp_offset_at r (Loc (l_line l + 1) 0) = Some (Z.of_nat (i + n)).
Proof.
  intros r s i n H (_ & L & D). unfold cap_line_comment in D. destruct D as [(_ & b & E & N)|D]; [|exfalso; repeat destruct D as [D|D]; destruct D as [D _]; discriminate D].
  pose proof (made_wf (line_ends x0a) (fun _ h => proj1 h) r s H) as W. exists (loc_of x0a (firstn i s)). split; [apply (wf_line_col x0a r s i W); lia|].
  rewrite <- (wf_offset x0a r s (i + n) W L). f_equal.
  change (firstn (i + n) s) with (part s 0 (i + n)). rewrite part_app. cbn [Nat.add]. rewrite E. change (part s 0 i) with (firstn i s).
  rewrite !app_assoc. rewrite loc_snoc. unfold step_loc. rewrite byte_eqb_refl. f_equal. rewrite <- app_assoc, loc_app.
  rewrite (loc_nosep x0a ([x2f; x2f] ++ b)) by (intro I; apply in_app_iff in I as [I|I]; [cbn in I; intuition discriminate|exact (N I)]).
  rewrite addlocs_eq by (try apply line_pos; cbn; lia). cbn [l_line]. lia.
Qed.
