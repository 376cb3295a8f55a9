(** Memoized patterns without memoized patterns inside: what the compiler does to a pattern keeps them so. *)
From Coq Require Import ZArith.
From Verif Require Import Base Model_Charset Model_Isa Model_Capture Model_Code Model_VM Model_Pattern Spec_Peg Spec_Scope Spec_Run Proof_Eval Proof_Get Proof_Inline Proof_Codegen Proof_Compile Model_Table Spec_Memo.
Local Open Scope nat_scope.
Arguments Nat.max : simpl never.

Lemma part_trans : forall E p E' q E'' r, part E p E' q -> part E' q E'' r -> part E p E'' r.
Proof. intros E p E' q E'' r H. induction H; intro H'; [exact H'|]. eapply part_step; [eassumption|]. auto. Qed.

(** [ok] holds for all parts *)
Definition allp (ok : env -> pattern -> Prop) (E : env) (p : pattern) : Prop := forall E' q, part E p E' q -> ok E' q.
Lemma allp_self : forall ok E p, allp ok E p -> ok E p.
Proof. intros ok E p H. apply H. apply part_self. Qed.
Lemma allp_child : forall ok E p E' q, allp ok E p -> child E p E' q -> allp ok E' q.
Proof. intros ok E p E' q H C E'' r P. apply H. eapply part_step; eassumption. Qed.
Lemma allp_part : forall ok E p E' q, allp ok E p -> part E p E' q -> allp ok E' q.
Proof. intros ok E p E' q H C E'' r P. apply H. eapply part_trans; eassumption. Qed.
Lemma allp_intro : forall (ok : env -> pattern -> Prop) E p, ok E p -> (forall E' q, child E p E' q -> allp ok E' q) -> allp ok E p.
Proof. intros ok E p H C E' q P. inversion P; subst; [exact H|]. eapply C; eassumption. Qed.

(** [R E q E' q']: every part of the second is related to a part of the first *)
Definition simul (R : env -> pattern -> env -> pattern -> Prop) : Prop :=
  forall E q E' q' E1' q1', R E q E' q' -> child E' q' E1' q1' -> exists E1 q1, part E q E1 q1 /\ R E1 q1 E1' q1'.
Definition respects (ok : env -> pattern -> Prop) (R : env -> pattern -> env -> pattern -> Prop) : Prop :=
  forall E q E' q', R E q E' q' -> allp ok E q -> ok E' q'.
Lemma simul_allp : forall ok R E q E' q', simul R -> respects ok R -> R E q E' q' -> allp ok E q -> allp ok E' q'.
Proof.
  intros ok R E q E' q' HS HR H HA E2 q2 P. revert E q H HA. induction P as [E' q'|E' q' E1 q1 E2 q2 C P IH]; intros E q H HA.
  - eapply HR; eassumption.
  - destruct (HS _ _ _ _ _ _ H C) as (E3 & q3 & P3 & R3). eapply IH; [exact R3|]. eapply allp_part; eassumption.
Qed.

(* ---------- the three relations ---------- *)
Inductive rleaf : env -> pattern -> env -> pattern -> Prop :=
| rl_leaf : forall E E' q, open_nts q = [] -> rleaf E q E' q
| rl_eq : forall E q, rleaf E q E q.
Lemma rleaf_simul : simul rleaf.
Proof.
  intros E q E' q' E1' q1' H C. inversion H; subst.
  - inversion C; subst; try (cbn [open_nts] in *; try (match goal with h : _ ++ _ = [] |- _ => apply app_eq_nil in h; destruct h end);
      eexists; eexists; (split; [eapply part_step; [constructor|apply part_self]|apply rl_leaf; assumption])).
    + exists (defs :: E), q1'. split; [eapply part_step; [econstructor; eassumption|apply part_self]|]. apply rl_leaf.
      rewrite open_nts_grammar in H0. destruct (open_nts q1') as [|y l] eqn:Eo; [reflexivity|]. exfalso.
      assert (Hin : In y (List.concat (map (fun kq => open_nts (snd kq)) defs))) by (apply in_concat_map; exists (k, q1'); cbn [snd]; rewrite Eo; simpl; auto).
      rewrite H0 in Hin. exact Hin.
    + discriminate.
  - exists E1', q1'. split; [eapply part_step; [exact C|apply part_self]|apply rl_eq].
Qed.

Section Wk.
Variable Fr : frame.
Inductive rwk : env -> pattern -> env -> pattern -> Prop :=
| rw_wk : forall E1 E2 X q, wk Fr E1 E2 X -> disjoint X (free_nts q) -> rwk E2 q E1 q
| rw_eq : forall E q, rwk E q E q.
Lemma rwk_simul : simul rwk.
Proof.
  intros E q E' q' E1' q1' H C. inversion H; subst.
  - inversion C; subst; try (cbn [free_nts] in *; try (match goal with h : disjoint _ (_ ++ _) |- _ => apply disj_app in h; destruct h end);
      eexists; eexists; (split; [eapply part_step; [constructor|apply part_self]|eapply rw_wk; eassumption])).
    + destruct (wk_grammar _ _ _ _ _ _ H0 H1) as [HE Hd]. exists (defs :: E), q1'. split; [eapply part_step; [econstructor; eassumption|apply part_self]|].
      eapply rw_wk; [exact HE|]. rewrite Forall_forall in Hd. apply (Hd (k, q1')). assumption.
    + destruct (wk_lookup _ _ _ _ x H0) as [L|(b & E1 & E2 & X' & L1 & L2 & W & D)].
      * intro Hx. apply (H1 x Hx). left. reflexivity.
      * exists E1', q1'. split; [eapply part_step; [constructor; rewrite <- L; eassumption|apply part_self]|apply rw_eq].
      * rewrite L1 in H2. injection H2 as <- <-. exists E2, b. split; [eapply part_step; [constructor; exact L2|apply part_self]|]. eapply rw_wk; eassumption.
  - exists E1', q1'. split; [eapply part_step; [exact C|apply part_self]|apply rw_eq].
Qed.
End Wk.

Section Inl.
Variable f : string -> option pattern.
Variable defs : frame.
Variable E0 : env.
Hypothesis Hf : forall x q, f x = Some q -> assoc defs x = Some q /\ open_nts q = [].
Hypothesis Hdefs : Forall (fun kq => cond f [] (snd kq)) defs.
Inductive rinl : env -> pattern -> env -> pattern -> Prop :=
| ri_inl : forall E1 E2 B q, ie f defs E0 E1 E2 B -> cond f B q -> rinl E1 q E2 (inline_in f q)
| ri_leaf : forall E E' q, open_nts q = [] -> rinl E q E' q
| ri_eq : forall E q, rinl E q E q.
Lemma rinl_simul : simul rinl.
Proof.
  intros E q E' q' E1' q1' H C. inversion H; subst.
  - destruct q; cbn [inline_in] in C;
      try (inversion C; subst; try (edestruct (fun h1 h2 => cond_l f B q1 q2 _ h1 h2 H1) as [? ?]; [reflexivity|reflexivity|]);
        eexists; eexists; (split; [eapply part_step; [constructor|apply part_self]|eapply ri_inl; eassumption]); fail).
    + (* grammar *)
      change (child E' (inline_in f (PGrammar defs0 start)) E1' q1') in C. rewrite inline_in_grammar in C. inversion C; subst.
      match goal with h : In _ (map _ _) |- _ => apply in_map_iff in h; destruct h as ([k0 b] & Ek & Hk) end. injection Ek as <- <-.
      exists (defs0 :: E), b. split; [eapply part_step; [econstructor; exact Hk|apply part_self]|].
      pose proof (cond_grammar _ _ _ _ H1) as HG. eapply ri_inl; [apply ie_under; [exact H0|exact HG]|]. rewrite Forall_forall in HG. apply (HG _ Hk).
    + (* nonterminal *)
      destruct inl as [q|]; [inversion C; subst; eexists; eexists; (split; [eapply part_step; [constructor|apply part_self]|eapply ri_inl; eassumption])|].
      destruct (f name) as [q|] eqn:Ef.
      * inversion C; subst. exists (defs :: E0), q1'. split; [|apply ri_leaf; apply (Hf _ _ Ef)].
        eapply part_step; [constructor|apply part_self]. eapply ie_lookup_inl; try eassumption. destruct H1 as [H1 _]. eapply H1; [exact Ef|]. left. reflexivity.
      * inversion C; subst. destruct (ie_lookup f defs E0 Hdefs _ _ _ name H0) as [L|(b & E1 & E2 & B' & L1 & L2 & I1 & I2)].
        -- exists E1', q1'. split; [eapply part_step; [constructor; rewrite L; eassumption|apply part_self]|apply ri_eq].
        -- rewrite L2 in H4. injection H4 as <- <-. exists E1, b. split; [eapply part_step; [constructor; exact L1|apply part_self]|]. eapply ri_inl; eassumption.
    + destruct recover as [q|]; inversion C; subst. eexists; eexists; (split; [eapply part_step; [constructor|apply part_self]|eapply ri_inl; eassumption]).
  - assert (HL : rleaf E q' E' q') by (apply rl_leaf; assumption).
    destruct (rleaf_simul _ _ _ _ _ _ HL C) as (E1 & q1 & P1 & R1). exists E1, q1. split; [exact P1|]. inversion R1; subst; [apply ri_leaf; assumption|apply ri_eq].
  - exists E1', q1'. split; [eapply part_step; [exact C|apply part_self]|apply ri_eq].
Qed.
End Inl.

(* ---------- no memoized pattern ---------- *)
Definition nm_ok (E : env) (q : pattern) : Prop := match q with PMemo _ _ => False | _ => True end.
Notation nomemo := (allp nm_ok).
Definition flat_ok (E : env) (q : pattern) : Prop :=
  match q with PMemo q _ => nomemo E q | PStar q | PPlus q => ~ memo_head E q | _ => True end.
Notation flatp := (allp flat_ok).

Lemma bl_leaf : forall E q, blank E q -> open_nts q = [] -> forall E', blank E' q.
Proof.
  intros E q H. induction H; cbn [open_nts]; intros Ho E2; try (apply app_eq_nil in Ho; destruct Ho); try discriminate.
  - constructor.
  - constructor. auto.
  - apply bl_seq; auto.
  - apply bl_alt; auto.
Qed.
Lemma mh_leaf : forall E q, memo_head E q -> open_nts q = [] -> forall E', memo_head E' q.
Proof.
  intros E q H. induction H; cbn [open_nts]; intros Ho E2; try (apply app_eq_nil in Ho; destruct Ho); try discriminate.
  - constructor.
  - constructor. auto.
  - apply mh_seq_l; [auto|]. eapply bl_leaf; eassumption.
  - apply mh_seq_r; [|auto]. eapply bl_leaf; eassumption.
Qed.
Lemma bl_wk : forall Fr E1 q, blank E1 q -> forall E2 X, wk Fr E1 E2 X -> disjoint X (free_nts q) -> blank E2 q.
Proof.
  intros Fr E1 q H. induction H; cbn [free_nts]; intros E2 X W D; try (apply disj_app in D; destruct D).
  - constructor.
  - constructor. eauto.
  - destruct (wk_lookup _ _ _ _ x W) as [L|(b & E1 & E3 & X' & L1 & L2 & W' & D')].
    + intro Hx. apply (D x Hx). left. reflexivity.
    + econstructor; [rewrite <- L; eassumption|]. assumption.
    + rewrite L1 in H. injection H as <- <-. econstructor; [exact L2|]. eauto.
  - apply bl_seq; eauto.
  - apply bl_alt; eauto.
Qed.
Lemma mh_wk : forall Fr E1 q, memo_head E1 q -> forall E2 X, wk Fr E1 E2 X -> disjoint X (free_nts q) -> memo_head E2 q.
Proof.
  intros Fr E1 q H. induction H; cbn [free_nts]; intros E2 X W D; try (apply disj_app in D; destruct D).
  - constructor.
  - constructor. eauto.
  - destruct (wk_lookup _ _ _ _ x W) as [L|(b & E1 & E3 & X' & L1 & L2 & W' & D')].
    + intro Hx. apply (D x Hx). left. reflexivity.
    + econstructor; [rewrite <- L; eassumption|]. assumption.
    + rewrite L1 in H. injection H as <- <-. econstructor; [exact L2|]. eauto.
  - apply mh_seq_l; [eauto|]. eapply bl_wk; eassumption.
  - apply mh_seq_r; [|eauto]. eapply bl_wk; eassumption.
Qed.
Ltac bad Eq := repeat (match type of Eq with _ = match ?o with _ => _ end => destruct o; try discriminate end).
Lemma bl_inl : forall f defs E0, (forall x q, f x = Some q -> assoc defs x = Some q /\ open_nts q = []) -> Forall (fun kq => cond f [] (snd kq)) defs ->
  forall E2 q', blank E2 q' -> forall E1 B q, ie f defs E0 E1 E2 B -> cond f B q -> q' = inline_in f q -> blank E1 q.
Proof.
  intros f defs E0 Hf Hd E2 q' H. induction H; intros E1 B q0 I C Eq.
  - destruct q0; cbn [inline_in] in Eq; try discriminate; [bad Eq|bad Eq|apply bl_empty].
  - destruct q0; cbn [inline_in] in Eq; try discriminate; [|bad Eq]. destruct inl as [q1|].
    + injection Eq as -> ->. constructor. eapply IHblank; [exact I| |reflexivity]. exact C.
    + destruct (f name) as [q2|] eqn:Ef; [|discriminate]. injection Eq as -> ->. econstructor.
      * eapply ie_lookup_inl; try eassumption. destruct C as [C _]. eapply C; [exact Ef|]. left. reflexivity.
      * eapply bl_leaf; [exact H|]. apply (Hf _ _ Ef).
  - destruct q0; cbn [inline_in] in Eq; try discriminate; [|bad Eq]. destruct inl as [q1|]; [discriminate|]. destruct (f name) eqn:Ef; [discriminate|]. injection Eq as ->.
    destruct (ie_lookup f defs E0 Hd _ _ _ name I) as [L|(b & E3 & E4 & B' & L1 & L2 & I1 & I2)].
    + econstructor; [rewrite L; eassumption|]. assumption.
    + rewrite L2 in H. injection H as <- <-. econstructor; [exact L1|]. eapply IHblank; [exact I1|exact I2|reflexivity].
  - destruct q0; cbn [inline_in] in Eq; try discriminate; [|bad Eq|bad Eq]. injection Eq as -> ->.
    edestruct (fun h1 h2 => cond_l f B q0_1 q0_2 _ h1 h2 C) as [? ?]; [reflexivity|reflexivity|]. apply bl_seq; eauto.
  - destruct q0; cbn [inline_in] in Eq; try discriminate; [|bad Eq|bad Eq]. injection Eq as -> ->.
    edestruct (fun h1 h2 => cond_l f B q0_1 q0_2 _ h1 h2 C) as [? ?]; [reflexivity|reflexivity|]. apply bl_alt; eauto.
Qed.
Lemma mh_inl : forall f defs E0, (forall x q, f x = Some q -> assoc defs x = Some q /\ open_nts q = []) -> Forall (fun kq => cond f [] (snd kq)) defs ->
  forall E2 q', memo_head E2 q' -> forall E1 B q, ie f defs E0 E1 E2 B -> cond f B q -> q' = inline_in f q -> memo_head E1 q.
Proof.
  intros f defs E0 Hf Hd E2 q' H. induction H; intros E1 B q0 I C Eq.
  - destruct q0; cbn [inline_in] in Eq; try discriminate; [apply mh_memo|bad Eq|bad Eq].
  - destruct q0; cbn [inline_in] in Eq; try discriminate; [|bad Eq]. destruct inl as [q1|].
    + injection Eq as -> ->. constructor. eapply IHmemo_head; [exact I| |reflexivity]. exact C.
    + destruct (f name) as [q2|] eqn:Ef; [|discriminate]. injection Eq as -> ->. econstructor.
      * eapply ie_lookup_inl; try eassumption. destruct C as [C _]. eapply C; [exact Ef|]. left. reflexivity.
      * eapply mh_leaf; [exact H|]. apply (Hf _ _ Ef).
  - destruct q0; cbn [inline_in] in Eq; try discriminate; [|bad Eq]. destruct inl as [q1|]; [discriminate|]. destruct (f name) eqn:Ef; [discriminate|]. injection Eq as ->.
    destruct (ie_lookup f defs E0 Hd _ _ _ name I) as [L|(b & E3 & E4 & B' & L1 & L2 & I1 & I2)].
    + econstructor; [rewrite L; eassumption|]. assumption.
    + rewrite L2 in H. injection H as <- <-. econstructor; [exact L1|]. eapply IHmemo_head; [exact I1|exact I2|reflexivity].
  - destruct q0; cbn [inline_in] in Eq; try discriminate; [|bad Eq|bad Eq]. injection Eq as -> ->.
    edestruct (fun h1 h2 => cond_l f B q0_1 q0_2 _ h1 h2 C) as [? ?]; [reflexivity|reflexivity|]. apply mh_seq_l; [eauto|]. eapply bl_inl; try eassumption; reflexivity.
  - destruct q0; cbn [inline_in] in Eq; try discriminate; [|bad Eq|bad Eq]. injection Eq as -> ->.
    edestruct (fun h1 h2 => cond_l f B q0_1 q0_2 _ h1 h2 C) as [? ?]; [reflexivity|reflexivity|]. apply mh_seq_r; [|eauto]. eapply bl_inl; try eassumption; reflexivity.
Qed.

Lemma nm_leaf : forall E q E' q', rleaf E q E' q' -> nomemo E q -> nomemo E' q'.
Proof. intros E q E' q'. apply simul_allp; [apply rleaf_simul|]. intros E1 q1 E2 q2 R A. apply allp_self in A. inversion R; subst; exact A. Qed.
Lemma nm_wk : forall Fr E q E' q', rwk Fr E q E' q' -> nomemo E q -> nomemo E' q'.
Proof. intros Fr E q E' q'. apply simul_allp; [apply rwk_simul|]. intros E1 q1 E2 q2 R A. apply allp_self in A. inversion R; subst; exact A. Qed.
Lemma flat_leaf : forall E q E' q', rleaf E q E' q' -> flatp E q -> flatp E' q'.
Proof.
  intros E q E' q'. apply simul_allp; [apply rleaf_simul|]. intros E1 q1 E2 q2 R A. apply allp_self in A. inversion R; subst; [|exact A].
  destruct q2; cbn [flat_ok] in *; try exact Logic.I.
  - intro M. apply A. eapply mh_leaf; eassumption.
  - intro M. apply A. eapply mh_leaf; eassumption.
  - eapply nm_leaf; [|exact A]. apply rl_leaf. assumption.
Qed.
Lemma flat_wk : forall Fr E q E' q', rwk Fr E q E' q' -> flatp E q -> flatp E' q'.
Proof.
  intros Fr E q E' q'. apply simul_allp; [apply rwk_simul|]. intros E1 q1 E2 q2 R A. apply allp_self in A. inversion R; subst; [|exact A].
  destruct q2; cbn [flat_ok] in *; try exact Logic.I.
  - intro M. apply A. eapply mh_wk; eassumption.
  - intro M. apply A. eapply mh_wk; eassumption.
  - eapply nm_wk; [|exact A]. eapply rw_wk; eassumption.
Qed.
Section Inl2.
Variable f : string -> option pattern.
Variable defs : frame.
Variable E0 : env.
Hypothesis Hf : forall x q, f x = Some q -> assoc defs x = Some q /\ open_nts q = [].
Hypothesis Hdefs : Forall (fun kq => cond f [] (snd kq)) defs.
Lemma nm_inl : forall E q E' q', rinl f defs E0 E q E' q' -> nomemo E q -> nomemo E' q'.
Proof.
  intros E q E' q'. apply simul_allp; [apply rinl_simul; assumption|]. intros E1 q1 E2 q2 R A. apply allp_self in A. inversion R; subst; try exact A.
  destruct q1; try exact Logic.I; try exact A; cbn [inline_in]; [destruct inl; [exact Logic.I|]; destruct (f name); exact Logic.I|destruct recover; exact Logic.I].
Qed.
Lemma flat_inl : forall E q E' q', rinl f defs E0 E q E' q' -> flatp E q -> flatp E' q'.
Proof.
  intros E q E' q'. apply simul_allp; [apply rinl_simul; assumption|]. intros E1 q1 E2 q2 R A. inversion R; subst.
  - apply allp_self in A. destruct q1; cbn [inline_in flat_ok] in *; try exact Logic.I.
    + intro M. apply A. eapply mh_inl; try eassumption. reflexivity.
    + intro M. apply A. eapply mh_inl; try eassumption. reflexivity.
    + eapply nm_inl; [|exact A]. eapply ri_inl; eassumption.
    + destruct inl; [exact Logic.I|]. destruct (f name); exact Logic.I.
    + destruct recover; exact Logic.I.
  - eapply allp_self. eapply flat_leaf; [|exact A]. apply rl_leaf. assumption.
  - apply allp_self in A. exact A.
Qed.
End Inl2.

(* ---------- Get, Search and inlining of a grammar ---------- *)
Definition plain (q : pattern) : Prop := match q with PMemo _ _ | PStar _ | PPlus _ => False | _ => True end.
Definition ok_plain (ok : env -> pattern -> Prop) : Prop := (forall E q, plain q -> ok E q) /\ forall E set, ok E (PStar (PClass set)).
Lemma nm_plain : ok_plain nm_ok.
Proof. split; [intros E [] H; try exact Logic.I; destruct H|intros; exact Logic.I]. Qed.
Lemma flat_plain : ok_plain flat_ok.
Proof. split; [intros E [] H; try exact Logic.I; destruct H|]. intros E set M. inversion M. Qed.
Section Ok.
Variable ok : env -> pattern -> Prop.
Hypothesis Hok : ok_plain ok.
Lemma allp_class : forall E set, allp ok E (PClass set).
Proof. intros E set. apply allp_intro; [apply Hok; exact Logic.I|]. intros E' q C. inversion C. Qed.
Lemma allp_empty : forall E, allp ok E PEmpty.
Proof. intros E. apply allp_intro; [apply Hok; exact Logic.I|]. intros E' q C. inversion C. Qed.
Lemma allp_opt : forall E q, allp ok E q -> allp ok E (POpt q).
Proof. intros E q H. apply allp_intro; [apply Hok; exact Logic.I|]. intros E' q' C. inversion C; subst. exact H. Qed.
Lemma allp_get_f : forall n E p, allp ok E p -> allp ok E (get_f n p).
Proof.
  induction n as [|n IH]; intros E p H; [exact H|]. destruct p; cbn [get_f]; try exact H.
  - pose proof (IH _ _ (allp_child _ _ _ _ _ H (ch_alt_l _ _ _))) as G1. pose proof (IH _ _ (allp_child _ _ _ _ _ H (ch_alt_r _ _ _))) as G2.
    destruct (get_f n p1) eqn:E1; try (apply allp_empty); destruct (get_f n p2) eqn:E2;
      try (match goal with |- context [combine ?a ?b] => destruct (combine a b); [apply allp_class|exact H] end);
      try (apply IH; apply allp_opt; exact G1).
  - pose proof (IH _ _ (allp_child _ _ _ _ _ H (ch_seq_l _ _ _))) as G1. pose proof (IH _ _ (allp_child _ _ _ _ _ H (ch_seq_r _ _ _))) as G2.
    destruct (get_f n p2) eqn:E2; try exact G1; destruct (get_f n p1) eqn:E1; try exact H; try exact G2;
      match goal with |- context [get_not_seq ?a ?b ?c] => destruct (get_not_seq_cases a b c) as [Hg|(set & Hg)]; rewrite Hg; [exact H|apply allp_class] end.
  - pose proof (IH _ _ (allp_child _ _ _ _ _ H (ch_opt _ _))) as G1. destruct (get_f n p) eqn:E1; try exact H. exact G1.
  - destruct inl as [q|]; [|exact H]. eapply allp_child; [exact H|constructor].
Qed.
Lemma allp_get : forall E p, allp ok E p -> allp ok E (get p).
Proof. intros E p. apply allp_get_f. Qed.

Lemma allp_inv : forall (Inv : env -> pattern -> Prop), (forall E q E' q', Inv E q -> child E q E' q' -> Inv E' q' \/ allp ok E' q') ->
  (forall E q, Inv E q -> ok E q) -> forall E q, Inv E q -> allp ok E q.
Proof.
  intros Inv HC HO E q HI E' q' P. revert HI. induction P as [E q|E q E1 q1 E2 q2 C P IH]; intro HI; [apply HO; exact HI|].
  destruct (HC _ _ _ _ HI C) as [HI'|HA]; [apply IH; exact HI'|]. apply HA. exact P.
Qed.
Hypothesis Hwk : forall Fr E q E' q', rwk Fr E q E' q' -> allp ok E q -> allp ok E' q'.
Lemma allp_search : forall E q skip, ~ In "S"%string (free_nts q) -> allp ok E q -> allp ok E (search_grammar q skip).
Proof.
  intros E q skip HS HA. set (Fr := [("S"%string, search_body q skip)]).
  assert (HG : allp ok (Fr :: E) (get q)).
  { apply allp_get. eapply (Hwk Fr); [|exact HA]. eapply rw_wk; [apply wk_here|]. intros x [<-|[]]. exact HS. }
  apply (allp_inv (fun E' q' => (E' = E /\ q' = search_grammar q skip) \/ (E' = Fr :: E /\
     (q' = search_body q skip \/ q' = PNonTerm "S" None \/ q' = PDot x01 \/
      exists set, q' = PClass set \/ q' = PStar (PClass set) \/ q' = PSeq (PStar (PClass set)) (PNonTerm "S" None) \/
        q' = PSeq (PDot x01) (PSeq (PStar (PClass set)) (PNonTerm "S" None)) \/ q' = PSeq (PDot x01) (PNonTerm "S" None))))); [| |left; auto].
  - intros E1 q1 E2 q2 [[-> ->]|[-> H]] C.
    + unfold search_grammar in C. inversion C; subst. left. right. split; [reflexivity|]. left. match goal with h : In _ _ |- _ => destruct h as [h|[]]; injection h as _ <- end. reflexivity.
    + destruct H as [->|[->|[->|(set & [->|[->|[->|[->| ->]]]])]]].
      * unfold search_body in C. destruct skip as [set|]; cbn in C; inversion C; subst; try (right; exact HG); left; right; (split; [reflexivity|]); right; right; right.
        -- exists set. auto 10.
        -- exists (cs_new []). auto 10.
      * inversion C; subst. match goal with h : lookup _ _ = _ |- _ => cbn in h; injection h as <- <- end. left. right. auto.
      * inversion C.
      * inversion C.
      * inversion C; subst. left. right. split; [reflexivity|]. right. right. right. exists set. auto.
      * inversion C; subst; left; right; (split; [reflexivity|]); [right; right; right; exists set; auto|auto].
      * inversion C; subst; left; right; (split; [reflexivity|]); [auto|right; right; right; exists set; auto 10].
      * inversion C; subst; left; right; (split; [reflexivity|]); auto.
  - intros E1 q1 [[-> ->]|[-> H]]; [apply Hok; exact Logic.I|].
    destruct H as [->|[->|[->|(set & [->|[->|[->|[->| ->]]]])]]]; apply Hok; exact Logic.I.
Qed.

Hypothesis Hinl : forall f defs E0, (forall x q, f x = Some q -> assoc defs x = Some q /\ open_nts q = []) -> Forall (fun kq => cond f [] (snd kq)) defs ->
  forall E q E' q', rinl f defs E0 E q E' q' -> allp ok E q -> allp ok E' q'.
Lemma allp_pass : forall thr E defs st, dok defs -> allp ok E (PGrammar defs st) -> allp ok E (PGrammar (inline_pass thr defs) st).
Proof.
  intros thr E defs st Hd H. pose proof (cond_nil thr defs Hd) as Hc. apply allp_intro; [apply Hok; exact Logic.I|].
  intros E' q C. inversion C; subst. match goal with h : In _ (inline_pass _ _) |- _ => unfold inline_pass in h; apply in_map_iff in h; destruct h as ([k0 b] & Ek & Hk) end.
  injection Ek as <- <-. eapply (Hinl (inline_choice thr defs) defs E); [intros x q Hx; eapply inline_choice_spec; exact Hx|exact Hc| |].
  - eapply ri_inl; [apply ie_here|]. rewrite Forall_forall in Hc. apply (Hc _ Hk).
  - eapply allp_child; [exact H|]. econstructor. exact Hk.
Qed.
Lemma allp_inline : forall thr E defs st, sdok defs -> allp ok E (PGrammar defs st) -> allp ok E (PGrammar (inline_all thr defs) st).
Proof.
  intros thr E defs st [Hd|Hd] H; [|rewrite selfdef_inline by exact Hd; exact H].
  unfold inline_all. revert H Hd. generalize (S (count_open defs)). intro k. revert defs.
  induction k as [|k IH]; intros defs H Hd; [exact H|]. cbn [inline_n]. destruct (did_inline thr defs); [|exact H].
  apply IH; [apply allp_pass; assumption|apply dok_pass; exact Hd].
Qed.
Lemma allp_def : forall thr E defs st x b, sdok defs -> allp ok E (PGrammar defs st) -> assoc (inline_all thr defs) x = Some b -> allp ok (inline_all thr defs :: E) b.
Proof. intros thr E defs st x b Hd H Hb. eapply allp_child; [apply (allp_inline thr); eassumption|]. econstructor. apply assoc_in. exact Hb. Qed.
End Ok.
Lemma bl_get_f : forall n E p, blank E (get_f n p) -> blank E p.
Proof.
  induction n as [|n IH]; intros E p H; [exact H|]. destruct p; cbn [get_f] in H; try exact H.
  - assert (K : forall m q, blank E (get_f m (POpt q)) -> False).
    { intros [|m] q M; cbn [get_f] in M; [inversion M|]. destruct (get_f m q); inversion M. }
    destruct (get_f n p1) eqn:E1; try (apply bl_alt; apply IH; rewrite E1; exact H); destruct (get_f n p2) eqn:E2;
      try (match type of H with context [combine ?a ?b] => destruct (combine a b); [inversion H|exact H] end; fail); exfalso; eapply K; exact H.
  - assert (G : blank E (get_f n p1) -> blank E (get_f n p2) -> blank E (PSeq p1 p2)) by (intros; apply bl_seq; auto).
    destruct (get_f n p2) eqn:E2; try (apply G; [exact H|constructor]; fail); destruct (get_f n p1) eqn:E1; try exact H; try (apply G; [constructor|exact H]; fail);
      match type of H with context [get_not_seq ?a ?b ?c] => destruct (get_not_seq_cases a b c) as [Hg|(set & Hg)]; rewrite Hg in H; [exact H|inversion H] end.
  - exfalso. destruct (get_f n p) eqn:E1; inversion H.
  - destruct inl as [q|]; [|exact H]. constructor. exact H.
Qed.
Lemma mh_get_f : forall n E p, memo_head E (get_f n p) -> memo_head E p.
Proof.
  induction n as [|n IH]; intros E p H; [exact H|]. destruct p; cbn [get_f] in H; try exact H.
  - exfalso. assert (K : forall m q, memo_head E (get_f m (POpt q)) -> False).
    { intros [|m] q M; cbn [get_f] in M; [inversion M|]. destruct (get_f m q); inversion M. }
    destruct (get_f n p1) eqn:E1; try (inversion H; fail); destruct (get_f n p2) eqn:E2;
      try (match type of H with context [combine ?a ?b] => destruct (combine a b); inversion H end; fail); eapply K; exact H.
  - assert (G1 : memo_head E (get_f n p1) -> blank E (get_f n p2) -> memo_head E (PSeq p1 p2)) by (intros; apply mh_seq_l; [auto|eapply bl_get_f; eassumption]).
    assert (G2 : blank E (get_f n p1) -> memo_head E (get_f n p2) -> memo_head E (PSeq p1 p2)) by (intros; apply mh_seq_r; [eapply bl_get_f; eassumption|auto]).
    destruct (get_f n p2) eqn:E2; try (apply G1; [exact H|constructor]; fail); destruct (get_f n p1) eqn:E1; try exact H; try (apply G2; [constructor|exact H]; fail);
      match type of H with context [get_not_seq ?a ?b ?c] => destruct (get_not_seq_cases a b c) as [Hg|(set & Hg)]; rewrite Hg in H; [exact H|inversion H] end.
  - exfalso. destruct (get_f n p) eqn:E1; inversion H.
  - destruct inl as [q|]; [|exact H]. constructor. exact H.
Qed.
Lemma mh_get : forall E p, memo_head E (get p) -> memo_head E p.
Proof. intros E p. apply mh_get_f. Qed.

(* ---------- the code of such a pattern ---------- *)
Lemma CG_flat : forall thr M T E p c, CG thr M T E p c -> flatp E p -> CG thr (fun id E q => M id E q /\ nomemo E q) (fun _ _ _ => False) E p c.
Proof.
  intros thr M T E p c H. induction H; intro HF;
    try (assert (HL : forall E' q', child _ _ E' q' -> flatp E' q') by (intros E' q'; apply allp_child; exact HF)).
  - apply cg_get. apply IHCG. apply allp_get; [apply flat_plain|exact HF].
  - apply cg_alt_set. assumption.
  - apply cg_alt; [apply IHCG1|apply IHCG2]; apply HL; constructor.
  - eapply cg_alt_test; try eassumption; [apply IHCG1|apply IHCG2]; apply HL; constructor.
  - apply cg_seq; [apply IHCG1|apply IHCG2]; apply HL; constructor.
  - apply cg_star_span. assumption.
  - exfalso. apply allp_self in HF. apply HF. apply mh_get. rewrite H. constructor.
  - apply cg_star; [assumption|]. apply IHCG. apply HL. constructor.
  - assert (HQ : flatp E q) by (apply HL; constructor). apply cg_plus; [|apply IHCG2; exact HQ]. apply IHCG1.
    apply allp_intro; [|intros E' q' C; inversion C; subst; apply allp_get; [apply flat_plain|exact HQ]].
    apply allp_self in HF. cbn [flat_ok] in *. intro Hm. apply HF. apply mh_get. exact Hm.
  - apply cg_opt_char. assumption.
  - apply cg_opt_set. assumption.
  - apply cg_opt. apply IHCG. apply allp_intro; [exact Logic.I|]. intros E' q' C. inversion C; subst; [|apply allp_empty; apply flat_plain].
    apply allp_get; [apply flat_plain|]. apply HL. constructor.
  - apply cg_not. apply IHCG. apply HL. constructor.
  - apply cg_and. apply IHCG. apply HL. constructor.
  - apply cg_cap_begin. apply IHCG. apply HL. constructor.
  - apply cg_cap_full; try assumption. apply IHCG. apply HL. constructor.
  - apply cg_cap_late; try assumption. apply IHCG. apply HL. constructor.
  - apply cg_memo; [split; [assumption|]; apply allp_self in HF; exact HF|]. apply IHCG. apply HL. constructor.
  - apply cg_check. apply IHCG. apply HL. constructor.
  - eapply cg_search; [apply IHCG1; apply HL; constructor|assumption|]. apply IHCG2.
    apply allp_search; [apply flat_plain|apply flat_wk|assumption|]. apply HL. constructor.
  - apply cg_emptyop.
  - eapply cg_grammar_leaf; try eassumption. apply IHCG. eapply allp_def; [apply flat_plain|apply flat_inl|assumption|exact HF|eassumption].
  - eapply cg_grammar; try eassumption. intros b Hb. apply H2; [exact Hb|]. eapply allp_def; [apply flat_plain|apply flat_inl|assumption|exact HF|]. apply H0. exact Hb.
  - apply cg_class.
  - apply cg_lit.
  - apply cg_nt.
  - apply cg_inl. apply IHCG. apply HL. constructor.
  - apply cg_dot. assumption.
  - apply cg_err_none.
  - apply cg_err. apply IHCG. apply HL. constructor.
  - apply cg_empty.
Qed.
