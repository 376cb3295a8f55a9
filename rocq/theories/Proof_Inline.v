(** Inlining of non-terminals preserves the meaning of grammars. *)
From Verif Require Import Base Model_Charset Model_Isa Model_Capture Model_VM Model_Pattern Spec_Peg Spec_Scope Proof_Eval Proof_Get.
Local Open Scope nat_scope.

(** equations for the nested recursive functions *)
Lemma open_nts_grammar : forall defs st, open_nts (PGrammar defs st) = List.concat (map (fun kq => open_nts (snd kq)) defs).
Proof. intros. simpl. induction defs as [|[k q] defs IH]; simpl; [reflexivity|]. rewrite IH. reflexivity. Qed.
Lemma free_nts_grammar : forall defs st, free_nts (PGrammar defs st) =
  filter (fun x => negb (str_mem x (names defs))) (List.concat (map (fun kq => free_nts (snd kq)) defs)).
Proof.
  intros. simpl. f_equal.
  induction defs as [|[k q] defs IH]; simpl; [reflexivity|]. rewrite IH. reflexivity.
Qed.
Lemma bound_nts_grammar : forall defs st, bound_nts (PGrammar defs st) =
  List.concat (map (fun kq => filter (fun x => str_mem x (names defs)) (open_nts (snd kq)) ++ bound_nts (snd kq)) defs).
Proof.
  intros. simpl. set (nm := names defs). clearbody nm. induction defs as [|[k q] defs IH]; simpl; [reflexivity|]. rewrite IH, app_assoc. reflexivity.
Qed.
Lemma well_scoped_grammar : forall defs st, well_scoped (PGrammar defs st) <->
  Forall (fun kq => well_scoped (snd kq) /\ forall x, In x (names defs) -> ~ In x (bound_nts (snd kq))) defs.
Proof.
  intros. simpl. set (nm := names defs). clearbody nm. induction defs as [|[k q] defs IH]; simpl.
  - split; constructor.
  - rewrite IH. split.
    + intros [H1 H2]. constructor; auto.
    + intro H. inversion H; subst. auto.
Qed.
Lemma inline_in_grammar : forall f defs st, inline_in f (PGrammar defs st) = PGrammar (map (fun kq => (fst kq, inline_in f (snd kq))) defs) st.
Proof. intros. simpl. f_equal. induction defs as [|[k q] defs IH]; simpl; [reflexivity|]. rewrite IH. reflexivity. Qed.

Lemma in_concat_map : forall {A B} (f : A -> list B) l y, In y (List.concat (map f l)) <-> exists x, In x l /\ In y (f x).
Proof. intros. rewrite <- flat_map_concat_map. apply in_flat_map. Qed.

Lemma str_mem_in : forall x l, str_mem x l = true <-> In x l.
Proof.
  intros. unfold str_mem. rewrite existsb_exists. split.
  - intros (y & H & E). apply String.eqb_eq in E. subst. exact H.
  - intro H. exists x. split; [exact H|apply String.eqb_refl].
Qed.

Lemma assoc_in : forall {A} (l : list (string * A)) k v, assoc l k = Some v -> In (k, v) l.
Proof.
  intros A l k v. induction l as [|[k' v'] l IH]; simpl; [discriminate|].
  destruct (String.eqb_spec k' k); [intro H; injection H; intros; subst; auto | auto].
Qed.
Lemma assoc_none : forall {A} (l : list (string * A)) k, assoc l k = None <-> ~ In k (map fst l).
Proof.
  intros A l k. induction l as [|[k' v'] l IH]; simpl; [tauto|].
  destruct (String.eqb_spec k' k); [split; [discriminate|intro H; elim H; auto] | tauto].
Qed.
Lemma assoc_map : forall {A B} (g : A -> B) l k, assoc (map (fun kq => (fst kq, g (snd kq))) l) k = option_map g (assoc l k).
Proof.
  intros. induction l as [|[k' v'] l IH]; simpl; [reflexivity|]. destruct (String.eqb k' k); auto.
Qed.

Section Inl.
Variable s : list byte.
Variable CS : Type.
Variable check : nat -> CS -> list byte -> list byte -> nat -> Z -> Z -> CS * option nat.
Notation eval := (eval s check).

(** congruence: the shape of the induction shared by the lemmas below *)
Ltac ev := rewrite ?eval_plus, ?eval_opt, ?eval_alt, ?eval_seq, ?eval_star, ?eval_not, ?eval_and, ?eval_cap, ?eval_memo,
    ?eval_check, ?eval_search, ?eval_grammar, ?eval_lit, ?eval_class, ?eval_dot, ?eval_emptyop, ?eval_empty, ?eval_inl, ?eval_error, ?eval_error_none.

Lemma eorelse_cong : forall (a b : res CS) f g, a = b -> (forall w, f w = g w) -> eorelse a f = eorelse b g.
Proof. intros. subst. apply eorelse_ext. assumption. Qed.
Lemma ebind_cong : forall (a b : res CS) f g, a = b -> (forall j w, f j w = g j w) -> ebind a f = ebind b g.
Proof. intros. subst. apply ebind_ext. assumption. Qed.

(** a pattern without open non-terminals does not depend on the scope *)
Lemma leaf_env : forall n q E E' i w, open_nts q = [] -> eval n E q i w = eval n E' q i w.
Proof.
  induction n as [n IHn] using lt_wf_ind. intro q.
  assert (HN : forall m, S m = n -> forall q E E' i w, open_nts q = [] -> eval m E q i w = eval m E' q i w) by (intros; apply IHn; [lia|assumption]).
  clear IHn.
  induction q using pattern_ind'; intros E E' i w Hl; try (simpl in Hl; apply app_eq_nil in Hl; destruct Hl as [Hl1 Hl2]); ev.
  - apply eorelse_cong; auto.
  - apply ebind_cong; auto.
  - simpl in Hl. apply eorelse_cong; [|auto]. apply ebind_cong; [auto|]. intros. destruct n; [reflexivity|]. apply HN; [reflexivity|]. exact Hl.
  - simpl in Hl. apply ebind_cong; [auto|]. intros. ev. apply eorelse_cong; [|auto]. apply ebind_cong; [auto|]. intros. destruct n; [reflexivity|]. apply HN; [reflexivity|]. exact Hl.
  - simpl in Hl. apply eorelse_cong; auto. intros. ev. reflexivity.
  - simpl in Hl. rewrite (IHq E E') by assumption. reflexivity.
  - simpl in Hl. rewrite (IHq E E') by assumption. reflexivity.
  - simpl in Hl. rewrite (IHq E E') by assumption. reflexivity.
  - apply IHq. exact Hl.
  - simpl in Hl. rewrite (IHq E E') by assumption. reflexivity.
  - destruct n; [reflexivity|]. destruct (assoc defs st) eqn:Ea; [|reflexivity].
    apply HN; [reflexivity|]. rewrite open_nts_grammar in Hl. apply assoc_in in Ea.
    destruct (open_nts p) as [|y l] eqn:Eo; [reflexivity|]. exfalso.
    assert (Hin : In y (List.concat (map (fun kq => open_nts (snd kq)) defs))).
    { apply in_concat_map. exists (st, p). split; [exact Ea|]. simpl. rewrite Eo. left; reflexivity. }
    rewrite Hl in Hin. exact Hin.
  - simpl in Hl. destruct n; [reflexivity|]. apply eorelse_cong; [apply HN; auto|]. intro w0. destruct (i <? List.length s); [|reflexivity].
    rewrite (HN n eq_refl (PSearch q) E E') by exact Hl. reflexivity.
  - reflexivity.
  - reflexivity.
  - destruct o as [q|]; simpl in H, Hl; [|discriminate]. ev. apply H. exact Hl.
  - reflexivity.
  - destruct o as [q|]; simpl in H, Hl; ev; [|reflexivity]. apply H. exact Hl.
  - reflexivity.
  - reflexivity.
Qed.

(** adding a scope whose names are not used *)
Definition disjoint (X : list string) (l : list string) : Prop := forall x, In x X -> ~ In x l.
Definition minus (X l : list string) : list string := filter (fun x => negb (str_mem x l)) X.
Lemma in_minus : forall x X l, In x (minus X l) <-> In x X /\ ~ In x l.
Proof.
  intros. unfold minus. rewrite filter_In, negb_true_iff. split; intros [H1 H2]; split; auto.
  - rewrite <- str_mem_in. congruence.
  - destruct (str_mem x l) eqn:E; [|reflexivity]. apply str_mem_in in E. contradiction.
Qed.

Inductive wk (Fr : frame) : env -> env -> list string -> Prop :=
| wk_here : forall E, wk Fr (Fr :: E) E (names Fr)
| wk_under : forall E1 E2 X G, wk Fr E1 E2 X ->
    Forall (fun kq => disjoint (minus X (names G)) (free_nts (snd kq))) G ->
    wk Fr (G :: E1) (G :: E2) (minus X (names G)).

Lemma wk_lookup : forall Fr E1 E2 X x, wk Fr E1 E2 X -> ~ In x X ->
  lookup E1 x = lookup E2 x \/
  exists b E1' E2' X', lookup E1 x = Some (b, E1') /\ lookup E2 x = Some (b, E2') /\ wk Fr E1' E2' X' /\ disjoint X' (free_nts b).
Proof.
  intros Fr E1 E2 X x H. induction H as [E|E1 E2 X G H IH HG]; intro Hx.
  - left. simpl. destruct (assoc Fr x) eqn:Ea; [|reflexivity]. exfalso. apply Hx. apply assoc_in in Ea.
    unfold names. apply in_map_iff. exists (x, p). auto.
  - simpl. destruct (assoc G x) as [b|] eqn:Ea.
    + right. exists b, (G :: E1), (G :: E2), (minus X (names G)). split; [reflexivity|]. split; [reflexivity|]. split.
      * constructor; assumption.
      * apply assoc_in in Ea. rewrite Forall_forall in HG. apply (HG (x, b) Ea).
    + apply IH. intro H1. apply Hx. apply in_minus. split; [exact H1|]. apply assoc_none. exact Ea.
Qed.

Lemma disj_app : forall X a b, disjoint X (a ++ b) <-> disjoint X a /\ disjoint X b.
Proof. intros. unfold disjoint. split; [intro H; split; intros x Hx Hi; apply (H x Hx); apply in_or_app; auto|].
  intros [H1 H2] x Hx Hi. apply in_app_or in Hi. destruct Hi; [eapply H1|eapply H2]; eauto. Qed.

Lemma weaken : forall Fr n q E1 E2 X i w, wk Fr E1 E2 X -> disjoint X (free_nts q) -> eval n E1 q i w = eval n E2 q i w.
Proof.
  intro Fr. induction n as [n IHn] using lt_wf_ind. intro q.
  assert (HN : forall m, S m = n -> forall q E1 E2 X i w, wk Fr E1 E2 X -> disjoint X (free_nts q) -> eval m E1 q i w = eval m E2 q i w) by (intros; eapply IHn; [lia|eassumption|assumption]).
  clear IHn.
  induction q using pattern_ind'; intros E1 E2 X i w HE Hl; try (simpl in Hl; apply disj_app in Hl; destruct Hl as [Hl1 Hl2]); ev.
  - apply eorelse_cong; eauto.
  - apply ebind_cong; eauto.
  - simpl in Hl. apply eorelse_cong; [|auto]. apply ebind_cong; [eauto|]. intros. destruct n; [reflexivity|]. eapply HN; [reflexivity|eassumption|]. exact Hl.
  - simpl in Hl. apply ebind_cong; [eauto|]. intros. ev. apply eorelse_cong; [|auto]. apply ebind_cong; [eauto|]. intros. destruct n; [reflexivity|]. eapply HN; [reflexivity|eassumption|]. exact Hl.
  - simpl in Hl. apply eorelse_cong; eauto. intros. ev. reflexivity.
  - simpl in Hl. rewrite (IHq E1 E2 X) by assumption. reflexivity.
  - simpl in Hl. rewrite (IHq E1 E2 X) by assumption. reflexivity.
  - simpl in Hl. rewrite (IHq E1 E2 X) by assumption. reflexivity.
  - eapply IHq; eassumption.
  - simpl in Hl. rewrite (IHq E1 E2 X) by assumption. reflexivity.
  - destruct n; [reflexivity|]. destruct (assoc defs st) eqn:Ea; [|reflexivity].
    assert (HG : Forall (fun kq => disjoint (minus X (names defs)) (free_nts (snd kq))) defs).
    { apply Forall_forall. intros [k b] Hkb x Hx Hin. simpl in Hin. apply in_minus in Hx. destruct Hx as [Hx1 Hx2].
      apply (Hl x Hx1). rewrite free_nts_grammar. apply filter_In. split.
      - apply in_concat_map. exists (k, b). auto.
      - apply negb_true_iff. destruct (str_mem x (names defs)) eqn:Em; [|reflexivity]. apply str_mem_in in Em. contradiction. }
    eapply HN; [reflexivity| |].
    + apply wk_under; eassumption.
    + apply assoc_in in Ea. rewrite Forall_forall in HG. apply (HG (st, p) Ea).
  - simpl in Hl. destruct n; [reflexivity|]. apply eorelse_cong; [eapply HN; eauto|]. intro w0. destruct (i <? List.length s); [|reflexivity].
    rewrite (HN n eq_refl (PSearch q) E1 E2 X) by assumption. reflexivity.
  - reflexivity.
  - reflexivity.
  - destruct o as [q|]; simpl in H, Hl; ev; [eauto|]. rewrite !eval_nt. destruct n; [reflexivity|].
    assert (Hx : ~ In x X) by (intro; apply (Hl x); simpl; auto).
    destruct (wk_lookup _ _ _ _ _ HE Hx) as [->|(b & E1' & E2' & X' & -> & -> & HE' & Hd)]; [reflexivity|].
    eapply HN; [reflexivity|eassumption|assumption].
  - reflexivity.
  - destruct o as [q|]; simpl in H, Hl; ev; [|reflexivity]. eauto.
  - reflexivity.
  - reflexivity.
Qed.

(** one pass of inlining *)
Section Pass.
Variable f : string -> option pattern.
Variable defs : frame.
Variable E0 : env.
Hypothesis Hf : forall x q, f x = Some q -> assoc defs x = Some q /\ open_nts q = [].
Definition inl_frame (G : frame) : frame := map (fun kq => (fst kq, inline_in f (snd kq))) G.

Definition cond (B : list string) (p : pattern) : Prop :=
  (forall x q, f x = Some q -> In x (open_nts p) -> ~ In x B) /\
  (forall x q, f x = Some q -> ~ In x (bound_nts p)).

Hypothesis Hdefs : Forall (fun kq => cond [] (snd kq)) defs.

Inductive ie : env -> env -> list string -> Prop :=
| ie_here : ie (defs :: E0) (inl_frame defs :: E0) []
| ie_under : forall E1 E2 B G, ie E1 E2 B -> Forall (fun kq => cond (names G ++ B) (snd kq)) G ->
    ie (G :: E1) (inl_frame G :: E2) (names G ++ B).

Lemma inline_leaf : forall p, open_nts p = [] -> inline_in f p = p.
Proof.
  induction p using pattern_ind'; intro Hl; try (simpl in Hl; apply app_eq_nil in Hl; destruct Hl);
  try (simpl in *; f_equal; auto; fail).
  - rewrite inline_in_grammar. f_equal. rewrite open_nts_grammar in Hl.
    induction defs0 as [|[k q] ds IH]; [reflexivity|]. simpl in Hl. apply app_eq_nil in Hl. destruct Hl as [Hl1 Hl2].
    inversion H; subst. simpl. rewrite IH by assumption. simpl in H2. rewrite H2 by assumption. reflexivity.
  - destruct o as [q|]; simpl in *; [|discriminate]. rewrite H by assumption. reflexivity.
  - destruct o as [q|]; simpl in *; [|reflexivity]. rewrite H by assumption. reflexivity.
Qed.

Lemma ie_lookup_inl : forall E1 E2 B x q, ie E1 E2 B -> f x = Some q -> ~ In x B -> lookup E1 x = Some (q, defs :: E0).
Proof.
  intros E1 E2 B x q H Hx. induction H; intro HB.
  - simpl. destruct (Hf _ _ Hx) as [-> _]. reflexivity.
  - simpl. destruct (assoc G x) eqn:Ea.
    + exfalso. apply HB. apply in_or_app. left. apply assoc_in in Ea. apply in_map_iff. exists (x, p). auto.
    + apply IHie. intro. apply HB. apply in_or_app. auto.
Qed.

Lemma ie_lookup : forall E1 E2 B x, ie E1 E2 B -> 
  lookup E1 x = lookup E2 x \/
  exists b E1' E2' B', lookup E1 x = Some (b, E1') /\ lookup E2 x = Some (inline_in f b, E2') /\ ie E1' E2' B' /\ cond B' b.
Proof.
  intros E1 E2 B x H. induction H.
  - simpl. unfold inl_frame. rewrite assoc_map. destruct (assoc defs x) as [b|] eqn:Ea; simpl; [|auto].
    right. exists b, (defs :: E0), (inl_frame defs :: E0), []. split; [reflexivity|]. split; [reflexivity|]. split; [constructor|].
    apply assoc_in in Ea. rewrite Forall_forall in Hdefs. apply (Hdefs _ Ea).
  - simpl. unfold inl_frame. rewrite assoc_map. destruct (assoc G x) as [b|] eqn:Ea; simpl; [|exact IHie].
    right. exists b, (G :: E1), (inl_frame G :: E2), (names G ++ B). split; [reflexivity|]. split; [reflexivity|]. split.
    + constructor; assumption.
    + apply assoc_in in Ea. rewrite Forall_forall in H0. apply (H0 _ Ea).
Qed.

Lemma cond_sub : forall B p q, (forall x, In x (open_nts q) -> In x (open_nts p)) -> (forall x, In x (bound_nts q) -> In x (bound_nts p)) ->
  cond B p -> cond B q.
Proof. intros B p q H1 H2 [H3 H4]. split; intros x q' Hx Ho; [apply (H3 x q' Hx); auto | apply (H4 x q' Hx); auto]. Qed.
Lemma cond_l : forall B p q r, open_nts r = open_nts p ++ open_nts q -> bound_nts r = bound_nts p ++ bound_nts q -> cond B r -> cond B p /\ cond B q.
Proof. intros B p q r H1 H2 H. split; eapply cond_sub; try eassumption; intros; rewrite ?H1, ?H2; apply in_or_app; auto. Qed.
Lemma cond_grammar : forall B G st, cond B (PGrammar G st) -> Forall (fun kq => cond (names G ++ B) (snd kq)) G.
Proof.
  intros B G st [H1 H2]. apply Forall_forall. intros [k b] Hb. split.
  - intros x q Hx Ho Hin. apply in_app_or in Hin. destruct Hin as [Hin|Hin].
    + apply (H2 x q Hx). rewrite bound_nts_grammar. apply in_concat_map. exists (k, b). split; [exact Hb|].
      apply in_or_app. left. apply filter_In. split; [exact Ho|]. apply str_mem_in. exact Hin.
    + apply (H1 x q Hx); [|exact Hin]. rewrite open_nts_grammar. apply in_concat_map. exists (k, b). auto.
  - intros x q Hx Ho. apply (H2 x q Hx). rewrite bound_nts_grammar. apply in_concat_map. exists (k, b). split; [exact Hb|].
    apply in_or_app. right. exact Ho.
Qed.

Ltac ev' := rewrite ?eval_plus, ?eval_opt, ?eval_alt, ?eval_seq, ?eval_star, ?eval_not, ?eval_and, ?eval_cap, ?eval_memo,
    ?eval_check, ?eval_search, ?eval_grammar, ?eval_lit, ?eval_class, ?eval_dot, ?eval_emptyop, ?eval_empty, ?eval_inl, ?eval_error, ?eval_error_none.

Lemma inline_le : forall n p E1 E2 B i w, ie E1 E2 B -> cond B p ->
  le_res (eval n E1 p i w) (eval n E2 (inline_in f p) i w).
Proof.
  induction n as [n IHn] using lt_wf_ind. intro p.
  assert (HN : forall m, S m = n -> forall p E1 E2 B i w, ie E1 E2 B -> cond B p ->
     le_res (eval m E1 p i w) (eval m E2 (inline_in f p) i w)) by (intros; eapply IHn; [lia|eassumption|assumption]).
  clear IHn.
  induction p using pattern_ind'; intros E1 E2 B i w HE Hc.
  - cbn [inline_in]. ev'. edestruct (fun h1 h2 => cond_l B p1 p2 _ h1 h2 Hc) as [? ?]; [reflexivity|reflexivity|]. apply le_orelse; eauto.
  - cbn [inline_in]. ev'. edestruct (fun h1 h2 => cond_l B p1 p2 _ h1 h2 Hc) as [? ?]; [reflexivity|reflexivity|]. apply le_bind; eauto.
  - cbn [inline_in]. ev'. apply le_orelse; [|intros; apply le_refl]. apply le_bind; [eauto|]. intros. destruct n; [apply le_refl|].
    apply (HN n eq_refl (PStar p) E1 E2 B); assumption.
  - cbn [inline_in]. ev'. apply le_bind; [eauto|]. intros. ev'. apply le_orelse; [|intros; apply le_refl]. apply le_bind; [eauto|]. intros. destruct n; [apply le_refl|].
    apply (HN n eq_refl (PStar p) E1 E2 B); assumption.
  - cbn [inline_in]. ev'. apply le_orelse; eauto. intros. ev'. apply le_refl.
  - cbn [inline_in]. ev'. apply (le_ctx _ (enot CS i)); [reflexivity|eauto].
  - cbn [inline_in]. ev'. apply le_emap. eauto.
  - cbn [inline_in]. ev'. apply le_emap. eauto.
  - cbn [inline_in]. ev'. eauto.
  - cbn [inline_in]. ev'. apply (le_ctx _ (echeck s CS check ck id fl i)); [reflexivity|eauto].
  - rewrite inline_in_grammar. ev'. destruct n; [apply le_refl|]. rewrite assoc_map.
    destruct (assoc defs0 st) eqn:Ea; [|apply le_out]. simpl.
    pose proof (cond_grammar _ _ _ Hc) as HG.
    eapply (HN n eq_refl); [apply ie_under; eassumption|].
    apply assoc_in in Ea. rewrite Forall_forall in HG. apply (HG _ Ea).
  - cbn [inline_in]. ev'. destruct n; [apply le_refl|]. apply le_orelse; [apply (HN n eq_refl p E1 E2 B); assumption|]. intros. destruct (i <? List.length s); [|apply le_refl].
    apply (HN n eq_refl (PSearch p) E1 E2 B); assumption.
  - cbn [inline_in]. ev'. apply le_refl.
  - cbn [inline_in]. ev'. apply le_refl.
  - destruct o as [q|].
    + cbn [inline_in]. ev'. simpl in H. eauto.
    + cbn [inline_in]. destruct (f x) as [q|] eqn:Ex.
      * ev'. rewrite eval_nt. destruct n; [apply le_out|].
        assert (HB : ~ In x B) by (destruct Hc as [Hc _]; apply (Hc x q Ex); simpl; auto).
        rewrite (ie_lookup_inl _ _ _ _ _ HE Ex HB). destruct (Hf _ _ Ex) as [_ Hl].
        rewrite (leaf_env (S n) q E2 (defs :: E0)) by exact Hl. apply eval_mono1.
      * rewrite !eval_nt. destruct n; [apply le_out|].
        destruct (ie_lookup _ _ _ x HE) as [->|(b & E1' & E2' & B' & -> & -> & HE' & Hd)]; [apply le_refl|].
        eapply (HN n eq_refl); eassumption.
  - cbn [inline_in]. ev'. apply le_refl.
  - destruct o as [q|]; cbn [inline_in]; ev'; [|apply le_refl]. simpl in H. eauto.
  - cbn [inline_in]. ev'. apply le_refl.
  - cbn [inline_in]. ev'. apply le_refl.
Qed.

(** and back, with more fuel *)
Lemma inline_ge : forall n p E1 E2 B i w, ie E1 E2 B -> cond B p ->
  le_res (eval n E2 (inline_in f p) i w) (eval (S (2 * n)) E1 p i w).
Proof.
  induction n as [n IHn] using lt_wf_ind. intro p.
  assert (HN : forall m, S m = n -> forall p E1 E2 B i w, ie E1 E2 B -> cond B p ->
     le_res (eval m E2 (inline_in f p) i w) (eval (2 * n) E1 p i w)).
  { intros m Hm p0 E1 E2 B i w HE Hc. eapply le_trans; [eapply (IHn m); [lia|eassumption|assumption]|].
    apply eval_mono. lia. }
  clear IHn.
  induction p using pattern_ind'; intros E1 E2 B i w HE Hc.
  - cbn [inline_in]. ev'. edestruct (fun h1 h2 => cond_l B p1 p2 _ h1 h2 Hc) as [? ?]; [reflexivity|reflexivity|]. apply le_orelse; eauto.
  - cbn [inline_in]. ev'. edestruct (fun h1 h2 => cond_l B p1 p2 _ h1 h2 Hc) as [? ?]; [reflexivity|reflexivity|]. apply le_bind; eauto.
  - cbn [inline_in]. ev'. apply le_orelse; [|intros; apply le_refl]. apply le_bind; [eauto|]. intros. destruct n; [apply le_out|].
    apply (HN n eq_refl (PStar p) E1 E2 B); assumption.
  - cbn [inline_in]. ev'. apply le_bind; [eauto|]. intros. ev'. apply le_orelse; [|intros; apply le_refl]. apply le_bind; [eauto|]. intros. destruct n; [apply le_out|].
    apply (HN n eq_refl (PStar p) E1 E2 B); assumption.
  - cbn [inline_in]. ev'. apply le_orelse; eauto. intros. ev'. apply le_refl.
  - cbn [inline_in]. ev'. apply (le_ctx _ (enot CS i)); [reflexivity|eauto].
  - cbn [inline_in]. ev'. apply le_emap. eauto.
  - cbn [inline_in]. ev'. apply le_emap. eauto.
  - cbn [inline_in]. ev'. eauto.
  - cbn [inline_in]. ev'. apply (le_ctx _ (echeck s CS check ck id fl i)); [reflexivity|eauto].
  - rewrite inline_in_grammar. rewrite !eval_grammar. destruct n; [apply le_out|]. rewrite assoc_map.
    destruct (assoc defs0 st) eqn:Ea; [|apply le_out]. simpl option_map.
    pose proof (cond_grammar _ _ _ Hc) as HG.
    eapply (HN n eq_refl); [apply ie_under; eassumption|].
    apply assoc_in in Ea. rewrite Forall_forall in HG. apply (HG _ Ea).
  - cbn [inline_in]. ev'. destruct n; [apply le_out|]. apply le_orelse; [apply (HN n eq_refl p E1 E2 B); assumption|]. intros. destruct (i <? List.length s); [|apply le_refl].
    apply (HN n eq_refl (PSearch p) E1 E2 B); assumption.
  - cbn [inline_in]. ev'. apply le_refl.
  - cbn [inline_in]. ev'. apply le_refl.
  - destruct o as [q|].
    + cbn [inline_in]. ev'. simpl in H. eauto.
    + cbn [inline_in]. destruct (f x) as [q|] eqn:Ex.
      * ev'. rewrite eval_nt.
        assert (HB : ~ In x B) by (destruct Hc as [Hc _]; apply (Hc x q Ex); simpl; auto).
        rewrite (ie_lookup_inl _ _ _ _ _ HE Ex HB). destruct (Hf _ _ Ex) as [_ Hl].
        rewrite (leaf_env n q E2 (defs :: E0)) by exact Hl. apply eval_mono. lia.
      * rewrite !eval_nt. destruct n; [apply le_out|].
        destruct (ie_lookup _ _ _ x HE) as [->|(b & E1' & E2' & B' & -> & -> & HE' & Hd)].
        -- destruct (lookup E2 x) as [[b E']|]; [|apply le_out]. apply eval_mono. lia.
        -- eapply (HN n eq_refl); eassumption.
  - cbn [inline_in]. ev'. apply le_refl.
  - destruct o as [q|]; cbn [inline_in]; ev'; [|apply le_refl]. simpl in H. eauto.
  - cbn [inline_in]. ev'. apply le_refl.
  - cbn [inline_in]. ev'. apply le_refl.
Qed.
End Pass.
End Inl.

(** repeated passes *)
Section Static.
Variable f : string -> option pattern.
Hypothesis Hleaf : forall x q, f x = Some q -> open_nts q = [].
Definition fnone (x : string) : bool := match f x with None => true | _ => false end.

Lemma filter_concat : forall {A} (g : A -> bool) l, filter g (List.concat l) = List.concat (map (filter g) l).
Proof. intros. induction l; simpl; [reflexivity|]. rewrite filter_app, IHl. reflexivity. Qed.
Lemma filter_comm : forall {A} (g h : A -> bool) l, filter g (filter h l) = filter h (filter g l).
Proof.
  intros. induction l as [|a l IH]; simpl; [reflexivity|].
  destruct (g a) eqn:Eg, (h a) eqn:Eh; simpl; rewrite ?Eg, ?Eh, IH; reflexivity.
Qed.

Lemma open_inline : forall p, open_nts (inline_in f p) = filter fnone (open_nts p).
Proof.
  induction p using pattern_ind'; try (cbn [inline_in open_nts]; rewrite ?filter_app; congruence); try reflexivity.
  - rewrite inline_in_grammar, !open_nts_grammar, filter_concat, !map_map. f_equal. apply map_ext_in. intros [k q] Hq.
    rewrite Forall_forall in H. apply (H _ Hq).
  - destruct o as [q|]; simpl in *; [exact H|]. unfold fnone. destruct (f x) as [q|] eqn:Ex; simpl; [eapply Hleaf; eassumption|reflexivity].
  - destruct o as [q|]; simpl in *; [exact H|reflexivity].
Qed.

Lemma free_open : forall p x, In x (free_nts p) -> In x (open_nts p).
Proof.
  induction p using pattern_ind'; intros y Hy; cbn [free_nts open_nts] in *; auto;
    try (apply in_app_or in Hy; apply in_or_app; destruct Hy; auto; fail).
  - change (In y (free_nts (PGrammar defs st))) in Hy. change (In y (open_nts (PGrammar defs st))).
    rewrite free_nts_grammar in Hy. rewrite open_nts_grammar. apply filter_In in Hy. destruct Hy as [Hy _].
    apply in_concat_map in Hy. destruct Hy as (kq & Hk & Hy). apply in_concat_map. exists kq. split; [exact Hk|].
    rewrite Forall_forall in H. apply (H _ Hk). exact Hy.
  - destruct o; simpl in *; auto.
  - destruct o; simpl in *; auto.
Qed.
Lemma bound_open : forall p x, In x (bound_nts p) -> In x (open_nts p).
Proof.
  induction p using pattern_ind'; intros y Hy; cbn [bound_nts open_nts] in *; auto;
    try (apply in_app_or in Hy; apply in_or_app; destruct Hy; auto; fail); try contradiction.
  - change (In y (bound_nts (PGrammar defs st))) in Hy. change (In y (open_nts (PGrammar defs st))).
    rewrite bound_nts_grammar in Hy. rewrite open_nts_grammar. 
    apply in_concat_map in Hy. destruct Hy as (kq & Hk & Hy). apply in_concat_map. exists kq. split; [exact Hk|].
    apply in_app_or in Hy. destruct Hy as [Hy|Hy]; [apply filter_In in Hy; apply Hy|].
    rewrite Forall_forall in H. apply (H _ Hk). exact Hy.
  - destruct o; simpl in *; auto.
  - destruct o; simpl in *; auto.
Qed.
Lemma leaf_free : forall p, open_nts p = [] -> free_nts p = [].
Proof. intros p H. destruct (free_nts p) as [|x l] eqn:E; [reflexivity|]. exfalso. assert (Hx : In x (free_nts p)) by (rewrite E; left; reflexivity). apply free_open in Hx. rewrite H in Hx. exact Hx. Qed.
Lemma leaf_bound : forall p, open_nts p = [] -> bound_nts p = [].
Proof. intros p H. destruct (bound_nts p) as [|x l] eqn:E; [reflexivity|]. exfalso. assert (Hx : In x (bound_nts p)) by (rewrite E; left; reflexivity). apply bound_open in Hx. rewrite H in Hx. exact Hx. Qed.

Lemma names_inl : forall G, names (map (fun kq => (fst kq, inline_in f (snd kq))) G) = names G.
Proof. intros. unfold names. rewrite map_map. reflexivity. Qed.

Lemma bound_inline : forall p, bound_nts (inline_in f p) = filter fnone (bound_nts p).
Proof.
  induction p using pattern_ind'; try (cbn [inline_in bound_nts]; rewrite ?filter_app; congruence); try reflexivity.
  - rewrite inline_in_grammar, !bound_nts_grammar, filter_concat, !map_map, names_inl. f_equal. apply map_ext_in. intros [k q] Hq.
    rewrite Forall_forall in H. simpl. rewrite open_inline, filter_app, filter_comm. f_equal. apply (H _ Hq).
  - destruct o as [q|]; simpl in *; [exact H|]. destruct (f x) as [q|] eqn:Ex; simpl; [|reflexivity]. apply leaf_bound. eapply Hleaf; eassumption.
  - destruct o as [q|]; simpl in *; [exact H|reflexivity].
Qed.
Lemma free_inline : forall p, free_nts (inline_in f p) = filter fnone (free_nts p).
Proof.
  induction p using pattern_ind'; try (cbn [inline_in free_nts]; rewrite ?filter_app; congruence); try reflexivity.
  - rewrite inline_in_grammar, !free_nts_grammar, names_inl, (filter_comm fnone), (filter_concat fnone), !map_map. f_equal. f_equal. apply map_ext_in. intros [k q] Hq.
    rewrite Forall_forall in H. apply (H _ Hq).
  - destruct o as [q|]; simpl in *; [exact H|]. unfold fnone. destruct (f x) as [q|] eqn:Ex; simpl; [|reflexivity]. apply leaf_free. eapply Hleaf; eassumption.
  - destruct o as [q|]; simpl in *; [exact H|reflexivity].
Qed.

Hypothesis Hws : forall x q, f x = Some q -> well_scoped q.
Lemma ws_inline : forall p, well_scoped p -> well_scoped (inline_in f p).
Proof.
  induction p using pattern_ind'; intro Hp; try (simpl in *; tauto).
  - rewrite inline_in_grammar. apply well_scoped_grammar. apply well_scoped_grammar in Hp. rewrite names_inl.
    rewrite Forall_forall in *. intros kq' Hin. apply in_map_iff in Hin. destruct Hin as (kq & <- & Hk). simpl.
    destruct (Hp _ Hk) as [Hp1 Hp2]. split; [apply (H _ Hk); exact Hp1|].
    intros x Hx. rewrite bound_inline. intro Hb. apply filter_In in Hb. apply (Hp2 x Hx). apply Hb.
  - cbn [inline_in well_scoped] in *. destruct Hp as [Hp1 Hp2]. split; [auto|]. rewrite free_inline. intro Hb. apply filter_In in Hb. apply Hp2. apply Hb.
  - destruct o as [q|]; simpl in *; [auto|]. destruct (f x) eqn:Ex; [eapply Hws; eassumption|exact I].
  - destruct o as [q|]; simpl in *; [auto|exact I].
Qed.
End Static.

Lemma is_leaf_open : forall p, is_leaf p = true -> open_nts p = [].
Proof. intros p. unfold is_leaf. destruct (open_nts p); [reflexivity|discriminate]. Qed.

Lemma inline_choice_spec : forall thr defs x q, inline_choice thr defs x = Some q -> assoc defs x = Some q /\ open_nts q = [].
Proof.
  intros thr defs x q. unfold inline_choice. destruct (assoc defs x) as [q'|]; [|discriminate].
  destruct ((psize q' <? thr) && is_leaf q') eqn:E; [|discriminate]. intro H. injection H as <-.
  apply andb_true_iff in E. split; [reflexivity|]. apply is_leaf_open. apply E.
Qed.

Definition dok (defs : frame) : Prop := Forall (fun kq => forall x, In x (names defs) -> ~ In x (bound_nts (snd kq))) defs.

Lemma names_pass : forall thr defs, names (inline_pass thr defs) = names defs.
Proof. intros. apply names_inl. Qed.

Lemma dok_pass : forall thr defs, dok defs -> dok (inline_pass thr defs).
Proof.
  intros thr defs H. unfold dok. rewrite names_pass. unfold inline_pass, dok in *. rewrite Forall_forall in *.
  intros kq' Hin x Hx. apply in_map_iff in Hin. destruct Hin as (kq & <- & Hk). simpl.
  rewrite bound_inline by (intros; eapply inline_choice_spec; eassumption).
  intro Hb. apply filter_In in Hb. apply (H _ Hk x Hx). apply Hb.
Qed.

Lemma ws_pass : forall thr defs st, well_scoped (PGrammar defs st) -> well_scoped (PGrammar (inline_pass thr defs) st).
Proof.
  intros thr defs st H. pose proof H as H0. apply well_scoped_grammar in H0.
  change (PGrammar (inline_pass thr defs) st) with (PGrammar (map (fun kq => (fst kq, inline_in (inline_choice thr defs) (snd kq))) defs) st).
  rewrite <- inline_in_grammar. apply ws_inline.
  - intros; eapply inline_choice_spec; eassumption.
  - intros x q Hx. apply inline_choice_spec in Hx. destruct Hx as [Hx _]. apply assoc_in in Hx.
    rewrite Forall_forall in H0. apply (H0 _ Hx).
  - exact H.
Qed.
Lemma ws_dok : forall defs st, well_scoped (PGrammar defs st) -> dok defs.
Proof. intros defs st H. apply well_scoped_grammar in H. unfold dok. eapply Forall_impl; [|exact H]. intros a Ha. apply Ha. Qed.

Lemma cond_nil : forall thr defs, dok defs -> Forall (fun kq => cond (inline_choice thr defs) [] (snd kq)) defs.
Proof.
  intros thr defs H. eapply Forall_impl; [|exact H]. intros kq Hk. split; [intros x q _ _ []|].
  intros x q Hx. apply Hk. apply inline_choice_spec in Hx. destruct Hx as [Hx _]. apply assoc_in in Hx.
  apply in_map_iff. exists (x, q). auto.
Qed.

Section InlineAll.
Variable s : list byte.
Variable CS : Type.
Variable check : nat -> CS -> list byte -> list byte -> nat -> Z -> Z -> CS * option nat.
Notation eval := (eval s check).
Variable thr : nat.

Lemma pass_le : forall n E defs st i w, dok defs ->
  le_res (eval n E (PGrammar defs st) i w) (eval n E (PGrammar (inline_pass thr defs) st) i w).
Proof.
  intros n E defs st i w H. rewrite !eval_grammar. destruct n; [apply le_out|].
  unfold inline_pass. rewrite assoc_map. destruct (assoc defs st) as [b|] eqn:Eb; [|apply le_out]. simpl.
  pose proof (cond_nil thr defs H) as Hc.
  eapply (inline_le _ _ _ _ defs E).
  - intros x q Hx. eapply inline_choice_spec. exact Hx.
  - exact Hc.
  - constructor.
  - apply assoc_in in Eb. rewrite Forall_forall in Hc. apply (Hc _ Eb).
Qed.

Lemma pass_ge : forall n E defs st i w, dok defs ->
  le_res (eval n E (PGrammar (inline_pass thr defs) st) i w) (eval (2 * n) E (PGrammar defs st) i w).
Proof.
  intros n E defs st i w H. rewrite !eval_grammar. destruct n; [apply le_out|].
  replace (2 * S n) with (S (S (2 * n))) by lia.
  unfold inline_pass. rewrite assoc_map. destruct (assoc defs st) as [b|] eqn:Eb; [|apply le_out]. cbn [option_map].
  pose proof (cond_nil thr defs H) as Hc.
  eapply (inline_ge _ _ _ _ defs E).
  - intros x q Hx. eapply inline_choice_spec. exact Hx.
  - exact Hc.
  - constructor.
  - apply assoc_in in Eb. rewrite Forall_forall in Hc. apply (Hc _ Eb).
Qed.

Lemma inline_n_le : forall k n E defs st i w, dok defs ->
  le_res (eval n E (PGrammar defs st) i w) (eval n E (PGrammar (inline_n thr k defs) st) i w).
Proof.
  induction k as [|k IH]; intros; [apply le_refl|]. cbn [inline_n]. destruct (did_inline thr defs); [|apply le_refl].
  eapply le_trans; [apply pass_le; assumption|]. apply IH. apply dok_pass. assumption.
Qed.
Lemma inline_n_ge : forall k n E defs st i w, dok defs -> exists m,
  le_res (eval n E (PGrammar (inline_n thr k defs) st) i w) (eval m E (PGrammar defs st) i w).
Proof.
  induction k as [|k IH]; intros n E defs st i w H; [exists n; apply le_refl|]. cbn [inline_n]. destruct (did_inline thr defs); [|exists n; apply le_refl].
  destruct (IH n E (inline_pass thr defs) st i w (dok_pass _ _ H)) as (m & Hm).
  exists (2 * m). eapply le_trans; [exact Hm|]. apply pass_ge. assumption.
Qed.
Lemma inline_all_le : forall n E defs st i w, dok defs ->
  le_res (eval n E (PGrammar defs st) i w) (eval n E (PGrammar (inline_all thr defs) st) i w).
Proof. intros. apply inline_n_le. assumption. Qed.

(** Inlining preserves the meaning of grammars *)
Lemma inline_all_peg : forall E defs st i w r w', dok defs ->
  (peg s check E (PGrammar (inline_all thr defs) st) i w r w' <-> peg s check E (PGrammar defs st) i w r w').
Proof.
  intros E defs st i w r w' H. split; intro Hp; apply eval_complete in Hp; destruct Hp as (n & x & Hn).
  - destruct (inline_n_ge (S (count_open defs)) n E defs st i w H) as (m & Hm).
    apply (eval_sound _ _ _ m _ _ _ _ _ _ x). unfold inline_all in Hn. rewrite Hn in Hm. symmetry. apply Hm. discriminate.
  - pose proof (inline_all_le n E defs st i w H) as Hm. rewrite Hn in Hm.
    apply (eval_sound _ _ _ n _ _ _ _ _ _ x). symmetry. apply Hm. discriminate.
Qed.
End InlineAll.

Lemma ws_inline_all : forall thr defs st, well_scoped (PGrammar defs st) -> well_scoped (PGrammar (inline_all thr defs) st).
Proof.
  intros thr defs st. unfold inline_all. generalize (S (count_open defs)). intro k. revert defs.
  induction k as [|k IH]; intros defs H; [exact H|]. cbn [inline_n]. destruct (did_inline thr defs); [|exact H].
  apply IH. apply ws_pass. exact H.
Qed.

(** the condition under which a grammar may be compiled: scoped, or a single definition that
    mentions itself, where nothing can be inlined (the form of the grammars made by Search) *)
Definition selfdef (defs : frame) : Prop := exists x r, defs = [(x, r)] /\ In x (open_nts r).
Definition sdok (defs : frame) : Prop := dok defs \/ selfdef defs.
Lemma selfdef_choice : forall thr defs y, selfdef defs -> inline_choice thr defs y = None.
Proof.
  intros thr defs y (x & r & -> & H). unfold inline_choice, assoc. destruct (String.eqb x y); [|destruct (String.eqb y x); [|reflexivity]];
    unfold is_leaf; destruct (open_nts r); try destruct H; rewrite ?andb_false_r; reflexivity.
Qed.
Lemma selfdef_inline : forall thr defs, selfdef defs -> inline_all thr defs = defs.
Proof.
  intros thr defs H. unfold inline_all. cbn [inline_n]. replace (did_inline thr defs) with false; [reflexivity|].
  unfold did_inline. symmetry. apply not_true_is_false. intro He. apply existsb_exists in He. destruct He as (kq & _ & He).
  apply existsb_exists in He. destruct He as (x & _ & He). rewrite selfdef_choice in He by exact H. discriminate.
Qed.
Lemma inline_all_sle : forall s CS check thr n E defs st i (w : world CS), sdok defs ->
  le_res (eval s check n E (PGrammar defs st) i w) (eval s check n E (PGrammar (inline_all thr defs) st) i w).
Proof.
  intros s CS check thr n E defs st i w [H|H]; [apply inline_all_le; exact H|]. rewrite selfdef_inline by exact H. apply le_refl.
Qed.

(** Inline reaches a fixed point: the loop [for p.inline() {}] ends *)
Lemma filter_length_lt : forall {A} (g : A -> bool) l, existsb (fun x => negb (g x)) l = true -> List.length (filter g l) < List.length l.
Proof.
  intros A g l. induction l as [|a l IH]; simpl; [discriminate|]. destruct (g a) eqn:Eg; simpl.
  - intro H. apply IH in H. lia.
  - intros _. assert (List.length (filter g l) <= List.length l). { clear. induction l; simpl; [lia|]. destruct (g a); simpl; lia. } lia.
Qed.
Lemma filter_length_le' : forall {A} (g : A -> bool) l, List.length (filter g l) <= List.length l.
Proof. intros. induction l; simpl; [lia|]. destruct (g a); simpl; lia. Qed.

Lemma count_pass : forall thr defs, did_inline thr defs = true -> count_open (inline_pass thr defs) < count_open defs.
Proof.
  intros thr defs. unfold did_inline, count_open, inline_pass. rewrite map_map. simpl.
  pose proof (fun x q => inline_choice_spec thr defs x q) as Hc.
  generalize (inline_choice thr defs) Hc. intros f Hf.
  assert (Hl : forall p, open_nts (inline_in f p) = filter (fnone f) (open_nts p)) by (apply open_inline; intros x q Hx; apply (Hf x q Hx)).
  clear Hc Hf.
  induction defs as [|[k q] defs IH]; simpl; [discriminate|]. intro H. apply orb_true_iff in H.
  rewrite Hl. 
  assert (Hsum : list_sum (map (fun kq => List.length (open_nts (inline_in f (snd kq)))) defs) <= list_sum (map (fun kq => List.length (open_nts (snd kq))) defs)).
  { clear H IH. induction defs as [|[k' q'] defs IH]; simpl; [lia|]. rewrite Hl. pose proof (filter_length_le' (fnone f) (open_nts q')). lia. }
  destruct H as [H|H].
  - assert (List.length (filter (fnone f) (open_nts q)) < List.length (open_nts q)); [|lia].
    apply filter_length_lt. rewrite <- H. clear. induction (open_nts q) as [|a l IHl]; simpl; [reflexivity|]. rewrite IHl. unfold fnone. destruct (f a); reflexivity.
  - specialize (IH H). pose proof (filter_length_le' (fnone f) (open_nts q)). lia.
Qed.
Lemma inline_n_fix : forall thr k defs, count_open defs < k -> did_inline thr (inline_n thr k defs) = false.
Proof.
  intros thr. induction k as [|k IH]; intros defs H; [lia|]. cbn [inline_n]. destruct (did_inline thr defs) eqn:E; [|exact E].
  apply IH. apply count_pass in E. lia.
Qed.
Lemma inline_all_fix : forall thr defs, did_inline thr (inline_all thr defs) = false.
Proof. intros. apply inline_n_fix. lia. Qed.
(** more iterations of the loop change nothing *)
Lemma inline_n_stable : forall thr k m defs, count_open defs < k -> k <= m -> inline_n thr m defs = inline_n thr k defs.
Proof.
  intros thr. induction k as [|k IH]; intros m defs H Hm; [lia|]. destruct m as [|m]; [lia|]. cbn [inline_n].
  destruct (did_inline thr defs) eqn:E; [|reflexivity]. apply IH; [|lia]. apply count_pass in E. lia.
Qed.
