(** The compiler produces code of the form described by CG. *)
From Verif Require Import Base Model_Charset Proof_Charset Model_Isa Model_Capture Model_VM Model_Pattern Spec_Peg Spec_Scope Proof_Eval Proof_Get Proof_Inline Proof_Codegen.
Local Open Scope nat_scope.
Arguments Nat.max : simpl never.

(* ---------- conditions on patterns and their preservation ---------- *)
(** same results, same examined range *)
Definition same (s : list byte) (CS : Type) (check : nat -> CS -> list byte -> list byte -> nat -> Z -> Z -> CS * option nat)
  (E : env) (q : pattern) (E' : env) (q' : pattern) : Prop :=
  forall i w r w' x, (exists n, eval s check n E q i w = (Some r, w', x)) <-> (exists n, eval s check n E' q' i w = (Some r, w', x)).
(** on all texts, with all checkers *)
Definition same_all (E : env) (q : pattern) (E' : env) (q' : pattern) : Prop := forall s CS check, same s CS check E q E' q'.

(** the widths of Any: one byte, or any positive number when [W] holds *)
Definition dotok (W : Prop) (n : byte) : Prop := n = x01 \/ (W /\ n <> x00).
Section Pok.
Variable W : Prop.
Variable thr : nat.
Variable MOK : Z -> env -> pattern -> Prop.

Hypothesis MOK_same : forall id E q E' q', same_all E q E' q' -> MOK id E q -> MOK id E' q'.

Fixpoint pok (E : env) (p : pattern) : Prop :=
  match p with
  | PAlt l r | PSeq l r => pok E l /\ pok E r
  | PStar p | PPlus p | POpt p | PNot p | PAnd p | PCap p _ | PCheck p _ _ _ => pok E p
  | PMemo q id => MOK id E q /\ pok E q
  | PSearch p => pok E p /\ ~ In "S"%string (free_nts p)
  | PGrammar defs _ => sdok defs /\ NoDup (names defs) /\
      (fix go (l : list (string * pattern)) : Prop := match l with [] => True | (_, q) :: l => pok (defs :: E) q /\ go l end) defs
  | PNonTerm _ (Some q) => pok E q
  | PError _ (Some q) => pok E q
  | PDot n => dotok W n
  | _ => True
  end.
Lemma pok_grammar : forall E defs st, pok E (PGrammar defs st) <-> sdok defs /\ NoDup (names defs) /\ Forall (fun kq => pok (defs :: E) (snd kq)) defs.
Proof.
  intros E defs st. cbn [pok].
  assert (H : forall E' l, (fix go (l : list (string * pattern)) : Prop := match l with [] => True | (_, q) :: l => pok E' q /\ go l end) l <->
     Forall (fun kq => pok E' (snd kq)) l).
  { intros E'. induction l as [|[k q] l IH]; [split; constructor|]. rewrite IH. split.
    - intros [H1 H2]. constructor; assumption.
    - intro H. inversion H; subst. auto. }
  rewrite H. tauto.
Qed.

Lemma same_leaf : forall E E' q, open_nts q = [] -> same_all E q E' q.
Proof. intros E E' q H s0 CS0 check0 i w r w' x. split; intros (n & Hn); exists n; [rewrite (leaf_env _ _ _ n q E' E)|rewrite (leaf_env _ _ _ n q E E')]; assumption. Qed.

Lemma pok_leaf : forall p E E', open_nts p = [] -> pok E p -> pok E' p.
Proof.
  induction p using pattern_ind'; intros E E' Ho Hp; try (cbn [open_nts] in Ho);
    try (apply app_eq_nil in Ho; destruct Ho; cbn [pok] in *; destruct Hp; split; eauto; fail); try (cbn [pok] in *; eauto; fail).
  - cbn [pok] in *. destruct Hp as [H1 H2]. split; [|eauto]. eapply MOK_same; [|exact H1]. apply same_leaf. exact Ho.
  - apply pok_grammar in Hp. destruct Hp as (H1 & H2 & H3). apply pok_grammar. split; [exact H1|]. split; [exact H2|].
    change (open_nts (PGrammar defs st) = []) in Ho. rewrite open_nts_grammar in Ho.
    rewrite Forall_forall in *. intros kq Hk. pose proof (H kq Hk) as IH. eapply (IH (defs :: E)); [|apply H3; exact Hk].
    destruct (open_nts (snd kq)) as [|y l] eqn:Eo; [reflexivity|]. exfalso.
    assert (Hin : In y (List.concat (map (fun kq => open_nts (snd kq)) defs))) by (apply in_concat_map; exists kq; rewrite Eo; simpl; auto).
    rewrite Ho in Hin. exact Hin.
  - cbn [pok] in *. destruct Hp as [H1 H2]. split; eauto.
  - destruct o as [q|]; cbn [pok] in *; [|exact I]. eapply H; eassumption.
  - destruct o as [q|]; cbn [pok] in *; [|exact I]. eapply H; eassumption.
Qed.

Lemma wk_grammar : forall Fr E1 E2 X G st, wk Fr E1 E2 X -> disjoint X (free_nts (PGrammar G st)) ->
  wk Fr (G :: E1) (G :: E2) (minus X (names G)) /\ Forall (fun kq => disjoint (minus X (names G)) (free_nts (snd kq))) G.
Proof.
  intros Fr E1 E2 X G st HE Hl.
  assert (HG : Forall (fun kq => disjoint (minus X (names G)) (free_nts (snd kq))) G).
  { apply Forall_forall. intros [k b] Hkb x Hx Hin. simpl in Hin. apply in_minus in Hx. destruct Hx as [Hx1 Hx2].
    apply (Hl x Hx1). rewrite free_nts_grammar. apply filter_In. split.
    - apply in_concat_map. exists (k, b). auto.
    - apply negb_true_iff. destruct (str_mem x (names G)) eqn:Em; [|reflexivity]. apply str_mem_in in Em. contradiction. }
  split; [|exact HG]. apply wk_under; assumption.
Qed.
Lemma pok_weaken : forall Fr p E1 E2 X, wk Fr E1 E2 X -> disjoint X (free_nts p) -> pok E2 p -> pok E1 p.
Proof.
  intros Fr. induction p using pattern_ind'; intros E1 E2 X HE Hd Hp; try (cbn [free_nts] in Hd);
    try (apply disj_app in Hd; destruct Hd; cbn [pok] in *; destruct Hp; split; eauto; fail); try (cbn [pok] in *; eauto; fail).
  - cbn [pok] in *. destruct Hp as [H1 H2]. split; [|eauto]. eapply MOK_same; [|exact H1]. intros s0 CS0 check0 i w r w' x.
    split; intros (n & Hn); exists n; [rewrite (weaken _ _ _ Fr n p E1 E2 X)|rewrite <- (weaken _ _ _ Fr n p E1 E2 X)]; assumption.
  - apply pok_grammar in Hp. destruct Hp as (H1 & H2 & H3). apply pok_grammar. split; [exact H1|]. split; [exact H2|].
    change (disjoint X (free_nts (PGrammar defs st))) in Hd. destruct (wk_grammar _ _ _ _ _ _ HE Hd) as [HE' Hd'].
    rewrite Forall_forall in *. intros kq Hk. eapply (H kq Hk); [exact HE'|apply Hd'; exact Hk|apply H3; exact Hk].
  - cbn [pok] in *. destruct Hp as [H1 H2]. split; eauto.
  - destruct o as [q|]; cbn [pok free_nts] in *; [|exact I]. eapply H; eassumption.
  - destruct o as [q|]; cbn [pok free_nts] in *; [|exact I]. eapply H; eassumption.
Qed.

(** Get *)
Lemma get_not_seq_cases : forall p g r, get_not_seq p g r = p \/ exists set, get_not_seq p g r = PClass set.
Proof.
  intros p g r. unfold get_not_seq.
  assert (H : forall set, match r with PDot x01 => PClass (cs_compl set) | PClass s => PClass (cs_sub s set) | PLit [b] => PClass (cs_sub (cs_new [b]) set) | _ => p end = p \/
    exists set', match r with PDot x01 => PClass (cs_compl set) | PClass s => PClass (cs_sub s set) | PLit [b] => PClass (cs_sub (cs_new [b]) set) | _ => p end = PClass set').
  { intro set. destruct r; eauto.
    - destruct str as [|b [|]]; eauto.
    - destruct n; eauto. }
  destruct g; auto. destruct str as [|b [|]]; auto.
Qed.
Lemma pok_get_f : forall n E p, pok E p -> pok E (get_f n p).
Proof.
  induction n as [|n IH]; intros E p H; [exact H|]. destruct p; cbn [get_f]; try exact H.
  - destruct H as [H1 H2]. pose proof (IH _ _ H1) as G1. pose proof (IH _ _ H2) as G2.
    assert (HP : pok E (PAlt p1 p2)) by (split; assumption).
    destruct (get_f n p1) eqn:E1; try exact I; destruct (get_f n p2) eqn:E2;
      try (match goal with |- context [combine ?a ?b] => destruct (combine a b); [exact I|exact HP] end);
      try (apply IH; exact G1).
  - destruct H as [H1 H2]. pose proof (IH _ _ H1) as G1. pose proof (IH _ _ H2) as G2.
    assert (HP : pok E (PSeq p1 p2)) by (split; assumption).
    destruct (get_f n p2) eqn:E2; try exact G1; destruct (get_f n p1) eqn:E1; try exact HP; try exact G2.
    all: match goal with |- context [get_not_seq ?a ?b ?c] => destruct (get_not_seq_cases a b c) as [->|(set & ->)]; [exact HP|exact I] end.
  - pose proof (IH E p H) as G. destruct (get_f n p); try exact H. exact G.
  - destruct inl; [exact H|exact I].
Qed.
Lemma pok_get : forall E p, pok E p -> pok E (get p). Proof. intros. apply pok_get_f. assumption. Qed.

Lemma call_open : forall p x, In x (call_nts p) -> In x (open_nts p).
Proof.
  induction p using pattern_ind'; intros y Hy; cbn [call_nts open_nts] in *; auto; try contradiction;
    try (apply in_app_or in Hy; apply in_or_app; destruct Hy; auto; fail).
  - destruct o; auto.
  - destruct o; auto.
Qed.
Lemma call_get_f : forall n p x, In x (call_nts (get_f n p)) -> In x (call_nts p).
Proof.
  induction n as [|n IH]; intros p x H; [exact H|]. destruct p; cbn [get_f] in H; try exact H.
  - assert (H0 : forall y, In y (call_nts (get_f n p1)) -> In y (call_nts (PAlt p1 p2))) by (intros; apply in_or_app; left; auto).
    destruct (get_f n p1) eqn:E1; try destruct H; destruct (get_f n p2) eqn:E2;
      try (match type of H with context [combine ?a ?b] => destruct (combine a b); [destruct H|exact H] end);
      try (apply IH in H; apply H0; exact H).
  - assert (H0 : forall y, In y (call_nts (get_f n p1)) -> In y (call_nts (PSeq p1 p2))) by (intros; apply in_or_app; left; auto).
    assert (H1 : forall y, In y (call_nts (get_f n p2)) -> In y (call_nts (PSeq p1 p2))) by (intros; apply in_or_app; right; auto).
    destruct (get_f n p2) eqn:E2; try (apply H0; exact H); destruct (get_f n p1) eqn:E1; try exact H; try (apply H1; exact H).
    all: match type of H with context [get_not_seq ?a ?b ?c] => destruct (get_not_seq_cases a b c) as [Hg|(set & Hg)]; rewrite Hg in H; [exact H|destruct H] end.
  - destruct (get_f n p) eqn:E1; try exact H. cbn [call_nts]. apply IH. rewrite E1. exact H.
  - destruct inl; exact H.
Qed.
Lemma call_get : forall p x, In x (call_nts (get p)) -> In x (call_nts p). Proof. intros p x. apply call_get_f. Qed.

(** inlining *)
Section Inl.
Variable f : string -> option pattern.
Variable defs : frame.
Variable E0 : env.
Hypothesis Hf : forall x q, f x = Some q -> assoc defs x = Some q /\ open_nts q = [].
Hypothesis Hdefs : Forall (fun kq => cond f [] (snd kq)) defs.
Hypothesis Hpok : Forall (fun kq => pok (defs :: E0) (snd kq)) defs.

Lemma pok_inline : forall p E1 E2 B, ie f defs E0 E1 E2 B -> cond f B p -> pok E1 p -> pok E2 (inline_in f p).
Proof.
  assert (Hleaf : forall x q, f x = Some q -> open_nts q = []) by (intros; eapply Hf; eassumption).
  induction p using pattern_ind'; intros E1 E2 B HE Hc Hp; try (cbn [inline_in pok] in *; eauto; fail).
  - cbn [inline_in pok] in *. edestruct (fun h1 h2 => cond_l f B p1 p2 _ h1 h2 Hc) as [? ?]; [reflexivity|reflexivity|]. destruct Hp. split; eauto.
  - cbn [inline_in pok] in *. edestruct (fun h1 h2 => cond_l f B p1 p2 _ h1 h2 Hc) as [? ?]; [reflexivity|reflexivity|]. destruct Hp. split; eauto.
  - cbn [inline_in pok] in *. destruct Hp as [H1 H2]. split; [|eauto]. eapply MOK_same; [|exact H1]. intros s0 CS0 check0 i w r w' x. split; intros (n & Hn).
    + exists n. pose proof (inline_le s0 CS0 check0 f defs E0 Hf Hdefs n p E1 E2 B i w HE Hc) as Hl. rewrite Hn in Hl. symmetry. apply Hl. discriminate.
    + eexists. pose proof (inline_ge s0 CS0 check0 f defs E0 Hf Hdefs n p E1 E2 B i w HE Hc) as Hl. rewrite Hn in Hl. symmetry. apply Hl. discriminate.
  - rewrite inline_in_grammar. apply pok_grammar in Hp. destruct Hp as (H1 & H2 & H3). apply pok_grammar.
    pose proof (cond_grammar _ _ _ _ Hc) as HG. split; [|split].
    + destruct H1 as [H1|(x & r & -> & Hx)].
      * left. unfold dok in *. rewrite names_inl. rewrite Forall_forall in *. intros kq' Hin x Hx. apply in_map_iff in Hin. destruct Hin as (kq & <- & Hk). cbn [snd].
        rewrite (bound_inline f Hleaf). intro Hb. apply filter_In in Hb. destruct Hb as [Hb _]. eapply H1; eassumption.
      * right. exists x, (inline_in f r). split; [reflexivity|]. rewrite (open_inline f Hleaf). apply filter_In. split; [exact Hx|].
        unfold fnone. destruct (f x) as [q|] eqn:Ef; [|reflexivity]. exfalso.
        rewrite Forall_forall in HG. destruct (HG _ (or_introl eq_refl)) as [HG1 _]. apply (HG1 _ _ Ef Hx). left. reflexivity.
    + rewrite names_inl. exact H2.
    + rewrite Forall_forall in *. intros kq' Hin. apply in_map_iff in Hin. destruct Hin as (kq & <- & Hk). cbn [snd].
      eapply (H kq Hk); [|apply HG; exact Hk|apply H3; exact Hk]. apply ie_under; [exact HE|]. apply Forall_forall. exact HG.
  - cbn [inline_in pok] in *. destruct Hp as [H1 H2]. split; [eauto|]. rewrite (free_inline f Hleaf). intro Hi. apply filter_In in Hi. destruct Hi. contradiction.
  - destruct o as [q|]; cbn [inline_in pok] in *; [eapply H; eassumption|]. destruct (f x) as [q|] eqn:Ex; [|exact I].
    destruct (Hf _ _ Ex) as [Ha Hl]. eapply pok_leaf; [exact Hl|]. rewrite Forall_forall in Hpok. apply assoc_in in Ha. apply (Hpok _ Ha).
  - destruct o as [q|]; cbn [inline_in pok] in *; [eapply H; eassumption|exact I].
Qed.
End Inl.

Definition gok (E : env) (defs : frame) : Prop := sdok defs /\ NoDup (names defs) /\ Forall (fun kq => pok (defs :: E) (snd kq)) defs.
Lemma gok_pass : forall E defs, dok defs -> gok E defs -> gok E (inline_pass thr defs).
Proof.
  intros E defs H1 (_ & H2 & H3). split; [left; apply dok_pass; exact H1|]. split; [rewrite names_pass; exact H2|].
  pose proof (cond_nil thr defs H1) as Hc. unfold inline_pass.
  apply Forall_forall. intros kq' Hin. apply in_map_iff in Hin. destruct Hin as (kq & <- & Hk). cbn [snd].
  eapply (pok_inline (inline_choice thr defs) defs E); try eassumption.
  - intros x q Hx. apply (inline_choice_spec thr). exact Hx.
  - apply ie_here.
  - rewrite Forall_forall in Hc. apply Hc. exact Hk.
  - rewrite Forall_forall in H3. apply H3. exact Hk.
Qed.
Lemma gok_inline : forall E defs, gok E defs -> gok E (inline_all thr defs).
Proof.
  intros E defs H. destruct (proj1 H) as [Hd|Hd]; [|rewrite selfdef_inline by exact Hd; exact H].
  unfold inline_all. revert H Hd. generalize (S (count_open defs)). intro k. revert defs.
  induction k as [|k IH]; intros defs H Hd; [exact H|]. cbn [inline_n]. destruct (did_inline thr defs); [|exact H].
  apply IH; [apply gok_pass; assumption|apply dok_pass; exact Hd].
Qed.

Lemma pok_search : forall E q skip, pok E q -> ~ In "S"%string (free_nts q) -> pok E (search_grammar q skip).
Proof.
  intros E q skip Hq HS. unfold search_grammar. apply pok_grammar. split; [|split].
  - right. exists "S"%string, (search_body q skip). split; [reflexivity|]. unfold search_body. destruct skip; cbn; rewrite ?in_app_iff; cbn; auto.
  - constructor; [intros []|constructor].
  - constructor; [|constructor]. cbn [snd].
    assert (Hg : pok ([("S"%string, search_body q skip)] :: E) (get q)).
    { apply pok_get. eapply pok_weaken; [apply wk_here| |exact Hq]. intros x [<-|[]]. exact HS. }
    unfold search_body. destruct skip; cbn; unfold dotok; auto.
Qed.
End Pok.
