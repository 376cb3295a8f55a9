(** Memoized patterns: purity, and evaluation on a text that differs elsewhere. *)
From Verif Require Import Base Model_Charset Model_Isa Model_Capture Model_VM Model_Pattern Spec_Peg Proof_Eval Spec_Memo.
Local Open Scope nat_scope.
Arguments Nat.max : simpl never.

(* ---------- parts ---------- *)
Lemma part_snoc : forall E p E' q E'' r, part E p E' q -> child E' q E'' r -> part E p E'' r.
Proof. intros E p E' q E'' r H. induction H; intro C; [eapply part_step; [exact C|apply part_self]|eapply part_step; eauto]. Qed.
Lemma part_trans : forall E p E' q E'' r, part E p E' q -> part E' q E'' r -> part E p E'' r.
Proof. intros E p E' q E'' r H. induction H; intro C; [exact C|eapply part_step; eauto]. Qed.
(** a set of patterns closed under [child] *)
Lemma part_in : forall (L : env -> pattern -> Prop), (forall E p E' q, L E p -> child E p E' q -> L E' q) ->
  forall E p E' q, part E p E' q -> L E p -> L E' q.
Proof. intros L H E p E' q P. induction P; intro K; [exact K|]. apply IHP. eapply H; eassumption. Qed.

Lemma assoc_in : forall {A} (l : list (string * A)) x v, assoc l x = Some v -> In (x, v) l.
Proof.
  induction l as [|[k v0] l IH]; intros x v H; [discriminate|]. cbn in H. destruct (String.eqb_spec k x) as [->|N].
  - injection H as ->. left. reflexivity.
  - right. apply IH. exact H.
Qed.

(* ---------- patterns without effects ---------- *)
Section Quiet.
Variable s : list byte.
Variable CS : Type.
Variable check : nat -> CS -> list byte -> list byte -> nat -> Z -> Z -> CS * option nat.
Notation eval := (eval s check).
Notation world := (world CS).
Notation res := (res CS).

Definition quiet (f : world -> res) : Prop := exists o x, forall w, f w = (o, w, x).
Lemma quiet_const : forall o x, quiet (fun w => (o, w, x)).
Proof. intros. exists o, x. reflexivity. Qed.
Lemma quiet_ext : forall f g, (forall w, f w = g w) -> quiet f -> quiet g.
Proof. intros f g H (o & x & Q). exists o, x. intro w. rewrite <- H. apply Q. Qed.
Lemma quiet_bind : forall f g, quiet f -> (forall j, quiet (g j)) -> quiet (fun w => ebind (f w) (fun j w => g j w)).
Proof.
  intros f g (o & x & Hf) Hg. destruct o as [[|j ts|j]|].
  - exists (Some RFail), x. intro w. rewrite Hf. reflexivity.
  - destruct (Hg j) as (o' & x' & Hj). destruct o' as [[|j' us|j']|]; eexists; eexists; intro w; rewrite Hf; cbn [ebind]; rewrite Hj; reflexivity.
  - exists (Some (RAbort j)), x. intro w. rewrite Hf. reflexivity.
  - exists None, x. intro w. rewrite Hf. reflexivity.
Qed.
Lemma quiet_orelse : forall f g, quiet f -> quiet g -> quiet (fun w => eorelse (f w) (fun w => g w)).
Proof.
  intros f g (o & x & Hf) (o' & x' & Hg). destruct o as [[|j ts|j]|]; eexists; eexists; intro w; rewrite Hf; cbn [eorelse]; try rewrite Hg; reflexivity.
Qed.
Lemma quiet_not : forall i f, quiet f -> quiet (fun w => enot CS i (f w)).
Proof. intros i f (o & x & Hf). destruct o as [[|j ts|j]|]; eexists; eexists; intro w; rewrite Hf; reflexivity. Qed.
Lemma quiet_map : forall h f, quiet f -> quiet (fun w => emap h (f w)).
Proof. intros h f (o & x & Hf). destruct o as [[|j ts|j]|]; eexists; eexists; intro w; rewrite Hf; reflexivity. Qed.
Lemma quiet_lit : forall l i, quiet (fun w => lit_eval s l i w).
Proof.
  induction l as [|b l IH]; intro i; cbn [lit_eval]; [apply quiet_const|]. destruct (nth_error s i) as [c|]; [|apply quiet_const].
  destruct (byte_eqb b c); [|apply quiet_const]. apply (quiet_bind (fun w => (Some (RSucc (S i) []), w, S i)) (fun j w => lit_eval s l j w)); [apply quiet_const|exact IH].
Qed.

Lemma eval_quiet : forall n q E, (forall E' q', part E q E' q' -> effectless q') -> forall i, quiet (fun w => eval n E q i w).
Proof.
  induction n as [n IHn] using lt_wf_ind. induction q using pattern_ind'; intros E HP i;
    assert (HC : forall E' q', child E _ E' q' -> forall E'' q'', part E' q' E'' q'' -> effectless q'') by (intros E' q' C E'' q'' P; apply (HP E'' q''); eapply part_step; eassumption).
  - eapply quiet_ext; [intro; symmetry; apply eval_alt|]. apply quiet_orelse; [apply IHq1|apply IHq2]; apply HC; constructor.
  - eapply quiet_ext; [intro; symmetry; apply eval_seq|]. apply quiet_bind; [apply IHq1|intro; apply IHq2]; apply HC; constructor.
  - eapply quiet_ext; [intro; symmetry; apply eval_star|]. apply quiet_orelse; [|apply quiet_const].
    apply (quiet_bind (fun w => eval n E q i w) (fun j w => match n with O => (None, w, 0) | S n => eval n E (PStar q) j w end)); [apply IHq; apply HC; constructor|].
    intro j. destruct n as [|n]; [apply quiet_const|]. apply IHn; [lia|exact HP].
  - assert (HS : forall E' q', part E (PStar q) E' q' -> effectless q').
    { intros E' q' P. inversion P; subst; [exact I|]. inversion H; subst. eapply (HC _ _ (ch_plus _ _)). exact H0. }
    assert (HQ : forall j, quiet (fun w => eval n E q j w)) by (apply IHq; apply HC; constructor).
    eapply quiet_ext; [intro; symmetry; rewrite eval_plus; apply eval_seq|]. apply quiet_bind; [apply HQ|]. intro j.
    eapply quiet_ext; [intro; symmetry; apply eval_star|]. apply quiet_orelse; [|apply quiet_const].
    apply (quiet_bind (fun w => eval n E q j w) (fun j w => match n with O => (None, w, 0) | S n => eval n E (PStar q) j w end)); [apply HQ|].
    intro k. destruct n as [|n]; [apply quiet_const|]. apply IHn; [lia|exact HS].
  - eapply quiet_ext; [intro; symmetry; rewrite eval_opt; apply eval_alt|]. apply quiet_orelse; [apply IHq; apply HC; constructor|].
    eapply quiet_ext; [intro; symmetry; apply eval_empty|]. apply quiet_const.
  - eapply quiet_ext; [intro; symmetry; apply eval_not|]. apply quiet_not. apply IHq. apply HC; constructor.
  - eapply quiet_ext; [intro; symmetry; apply eval_and|]. apply quiet_map. apply IHq. apply HC; constructor.
  - eapply quiet_ext; [intro; symmetry; apply eval_cap|]. apply quiet_map. apply IHq. apply HC; constructor.
  - eapply quiet_ext; [intro; symmetry; apply eval_memo|]. apply IHq. apply HC; constructor.
  - exfalso. exact (HP _ _ (part_self _ _)).
  - eapply quiet_ext; [intro; symmetry; apply eval_grammar|]. destruct n as [|n]; [apply quiet_const|]. destruct (assoc defs st) as [b|] eqn:Ea; [|apply quiet_const].
    apply IHn; [lia|]. apply HC. eapply ch_grammar. eapply assoc_in. exact Ea.
  - eapply quiet_ext; [intro; symmetry; apply eval_search|]. destruct n as [|n]; [apply quiet_const|].
    apply (quiet_orelse (fun w => eval n E q i w) (fun w => if i <? List.length s then eval n E (PSearch q) (S i) w else (Some RFail, w, 0))).
    + apply IHn; [lia|]. apply HC; constructor.
    + destruct (i <? List.length s); [|apply quiet_const]. apply IHn; [lia|exact HP].
  - eapply quiet_ext; [intro; symmetry; apply eval_class|]. unfold class_eval. destruct (nth_error s i); apply quiet_const.
  - eapply quiet_ext; [intro; symmetry; apply eval_lit|]. apply quiet_lit.
  - destruct o as [q|].
    + eapply quiet_ext; [intro; symmetry; apply eval_inl|]. apply H. apply HC; constructor.
    + eapply quiet_ext; [intro; symmetry; apply eval_nt|]. destruct n as [|n]; [apply quiet_const|]. destruct (lookup E x) as [[b E']|] eqn:El; [|apply quiet_const].
      apply IHn; [lia|]. apply HC. constructor. exact El.
  - eapply quiet_ext; [intro; symmetry; apply eval_dot|]. apply quiet_const.
  - exfalso. exact (HP _ _ (part_self _ _)).
  - eapply quiet_ext; [intro; symmetry; apply eval_emptyop|]. apply quiet_const.
  - eapply quiet_ext; [intro; symmetry; apply eval_empty|]. apply quiet_const.
Qed.

Lemma effectless_pure : forall p, memo_effectless p -> memo_pure s check p.
Proof.
  intros p H id E q Hm i w r w' Hp. destruct (eval_complete _ _ _ _ _ _ _ _ _ Hp) as (n & x & Hn).
  destruct (eval_quiet n q E (fun E' q' => H id E q E' q' Hm) i) as (o & x' & Q). rewrite Q in Hn. injection Hn as -> -> ->. split; [reflexivity|].
  intro v. eapply eval_sound. apply Q.
Qed.
End Quiet.

(* ---------- recorded patterns ---------- *)
Lemma recorded_grammar : forall defs st, recorded (PGrammar defs st) = true <-> Forall (fun kq => recorded (snd kq) = true) defs.
Proof.
  intros defs st. cbn [recorded]. induction defs as [|[k q] l IH]; [split; constructor|]. rewrite andb_true_iff, IH. split.
  - intros [A B]. constructor; assumption.
  - intro H. inversion H; subst. split; assumption.
Qed.
Lemma recorded_seq : forall l r, recorded (PSeq l r) = true ->
  (recorded l = true /\ recorded r = true) \/ exists q, l = PNot q /\ r = PDot x01 /\ peeks q = true /\ recorded q = true.
Proof.
  intros l r H. cbn [recorded] in H.
  assert (D : recorded l && recorded r = true -> recorded l = true /\ recorded r = true) by (intro K; apply andb_true_iff; exact K).
  destruct l; try (left; apply D; exact H). destruct r; try (left; apply D; exact H). destruct n; try (left; apply D; exact H).
  right. apply andb_true_iff in H. exists l. tauto.
Qed.
Lemma recorded_child : forall E p E' q, child E p E' q -> all_recorded E p -> all_recorded E' q \/ q = PDot x01.
Proof.
  intros E p E' q C [R1 R2].
  assert (K : recorded q = true -> all_recorded E' q \/ q = PDot x01).
  { intro R. left. split; [exact R|]. intros E1 x b E2 P. apply R2. eapply part_step; eassumption. }
  destruct C; try (cbn [recorded] in R1; try discriminate R1; apply andb_true_iff in R1 || idtac; apply K; tauto).
  - apply recorded_seq in R1. destruct R1 as [R1|(q & -> & -> & R3 & R4)]; apply K; [tauto|exact R4].
  - apply recorded_seq in R1. destruct R1 as [R1|(q & -> & -> & R3 & R4)]; [apply K; tauto|]. right. reflexivity.
  - apply recorded_grammar in R1. rewrite Forall_forall in R1. apply K. exact (R1 _ H).
  - apply K. exact (R2 _ _ _ _ (part_self _ _) H).
Qed.
Lemma recorded_part : forall E p E' q, part E p E' q -> all_recorded E p \/ p = PDot x01 -> all_recorded E' q \/ q = PDot x01.
Proof.
  intros E p E' q P. induction P as [|E p E1 q1 E2 q2 C P IH]; intros R; [exact R|]. apply IH. destruct R as [R| ->].
  - eapply recorded_child; eassumption.
  - inversion C.
Qed.
Lemma recorded_effectless : forall E p E' q, all_recorded E p -> part E p E' q -> effectless q.
Proof.
  intros E p E' q R P. destruct (recorded_part _ _ _ _ P (or_introl R)) as [[R1 _]| ->]; [|exact I].
  destruct q; try exact I; discriminate R1.
Qed.
Lemma memo_recorded_effectless : forall p, memo_recorded p -> memo_effectless p.
Proof. intros p H id E q E' q' Hm. eapply recorded_effectless. eapply H. exact Hm. Qed.

(* ---------- evaluation on another text ---------- *)
Fixpoint tmove (f : nat -> nat) (t : ctree) : ctree := match t with CNode id st ln kids => CNode id (f st) ln (map (tmove f) kids) end.

Section Other.
Variable CS : Type.
Variables check check' : nat -> CS -> list byte -> list byte -> nat -> Z -> Z -> CS * option nat.
Variables s s' : list byte.
Variables d d' m : nat.
Hypothesis Hsame : forall u, d + u < m -> nth_error s (d + u) = nth_error s' (d' + u).
Hypothesis Hbefore : byte_before s d = byte_before s' d'.
Notation world := (world CS).
Notation res := (res CS).

Definition mv (j : nat) : nat := j - d + d'.
Inductive rR : pres -> pres -> Prop :=
| rR_fail : rR RFail RFail
| rR_succ : forall u ts, rR (RSucc (d + u) ts) (RSucc (d' + u) (map (tmove mv) ts))
| rR_abort : forall u, rR (RAbort (d + u)) (RAbort (d' + u)).
Definition xR (x x' : nat) : Prop := (x = 0 /\ x' = 0) \/ exists u, x = d + u /\ x' = d' + u.
Lemma xR_max : forall x x' y y', xR x x' -> xR y y' -> xR (Nat.max x y) (Nat.max x' y').
Proof.
  intros x x' y y' [[-> ->]|(u & -> & ->)] [[-> ->]|(v & -> & ->)].
  - left. split; lia.
  - right. exists v. split; lia.
  - right. exists u. split; lia.
  - right. exists (Nat.max u v). split; lia.
Qed.
Lemma xR_0 : xR 0 0. Proof. left. auto. Qed.
Lemma xR_S : forall u, xR (S (d + u)) (S (d' + u)). Proof. intro u. right. exists (S u). split; lia. Qed.

Definition Rres (a b : res) : Prop :=
  match a with
  | (Some r, w, x) => x <= m -> exists r' x', b = (Some r', w, x') /\ rR r r' /\ xR x x'
  | _ => True
  end.
Lemma R_bind : forall a b f g, Rres a b -> (forall u w, Rres (f (d + u) w) (g (d' + u) w)) -> Rres (ebind a f) (ebind b g).
Proof.
  intros [[[[|j ts|j]|] w] x] b f g Ha Hf; cbn [ebind Rres] in *; try exact I;
    try (intro Hm; destruct (Ha Hm) as (r' & x' & -> & R1 & R2); inversion R1; subst; do 2 eexists; (split; [reflexivity|]); split; [constructor|exact R2]).
  destruct (f j w) as [[[r|] w1] x1] eqn:Ef.
  - assert (Hx : x <= m -> x1 <= m -> exists r' x', ebind b g = (Some r', w1, x') /\
       rR (match r with RSucc j' us => RSucc j' (ts ++ us) | _ => r end) r' /\ xR (Nat.max x x1) x').
    { intros Hx Hx1. destruct (Ha Hx) as (r' & x' & -> & R1 & R2). inversion R1; subst. specialize (Hf u w). rewrite Ef in Hf. cbn [Rres] in Hf.
      destruct (Hf Hx1) as (r2 & x2 & E2 & R3 & R4). cbn [ebind]. rewrite E2. inversion R3; subst.
      - do 2 eexists. split; [reflexivity|]. split; [constructor|apply xR_max; assumption].
      - do 2 eexists. split; [reflexivity|]. split; [rewrite <- map_app; constructor|apply xR_max; assumption].
      - do 2 eexists. split; [reflexivity|]. split; [constructor|apply xR_max; assumption]. }
    destruct r; intro Hm; apply Hx; lia.
  - exact I.
Qed.
Lemma R_orelse : forall a b f g, Rres a b -> (forall w, Rres (f w) (g w)) -> Rres (eorelse a f) (eorelse b g).
Proof.
  intros [[[[|j ts|j]|] w] x] b f g Ha Hf; cbn [eorelse Rres] in *; try exact I.
  - destruct (f w) as [[[r|] w1] x1] eqn:Ef; [|exact I]. intro Hm. destruct (Ha ltac:(lia)) as (r' & x' & -> & R1 & R2). inversion R1; subst.
    specialize (Hf w). rewrite Ef in Hf. destruct (Hf ltac:(lia)) as (r2 & x2 & E2 & R3 & R4). cbn [eorelse]. rewrite E2.
    do 2 eexists. split; [reflexivity|]. split; [exact R3|apply xR_max; assumption].
  - intro Hm. destruct (Ha Hm) as (r' & x' & -> & R1 & R2). inversion R1; subst. do 2 eexists. split; [reflexivity|]. auto.
  - intro Hm. destruct (Ha Hm) as (r' & x' & -> & R1 & R2). inversion R1; subst. do 2 eexists. split; [reflexivity|]. auto.
Qed.
Lemma R_not : forall a b u, Rres a b -> Rres (enot CS (d + u) a) (enot CS (d' + u) b).
Proof.
  intros [[[[|j ts|j]|] w] x] b u Ha; cbn [enot Rres] in *; try exact I;
    (intro Hm; destruct (Ha Hm) as (r' & x' & -> & R1 & R2); inversion R1; subst; do 2 eexists; (split; [reflexivity|])).
  - split; [apply (rR_succ u [])|exact R2].
  - split; [constructor|exact R2].
  - split; [constructor|exact R2].
Qed.
Lemma R_map : forall a b f g, Rres a b -> (forall u ts, rR (f (d + u) ts) (g (d' + u) (map (tmove mv) ts))) -> Rres (emap f a) (emap g b).
Proof.
  intros [[[[|j ts|j]|] w] x] b f g Ha Hf; cbn [emap Rres] in *; try exact I;
    (intro Hm; destruct (Ha Hm) as (r' & x' & -> & R1 & R2); inversion R1; subst; do 2 eexists; (split; [reflexivity|])).
  - split; [constructor|exact R2].
  - split; [apply Hf|exact R2].
  - split; [constructor|exact R2].
Qed.
Lemma R_succ : forall u w, Rres (Some (RSucc (d + u) []), w, 0) (Some (RSucc (d' + u) []), w, 0).
Proof. intros u w Hm. do 2 eexists. split; [reflexivity|]. split; [apply (rR_succ u [])|apply xR_0]. Qed.
Lemma R_lit : forall l u w, Rres (lit_eval s l (d + u) w) (lit_eval s' l (d' + u) w).
Proof.
  induction l as [|b l IH]; intros u w; cbn [lit_eval]; [apply R_succ|].
  assert (F : nth_error s (d + u) = nth_error s' (d' + u) -> Rres (Some RFail, w, S (d + u)) (Some RFail, w, S (d' + u))).
  { intros _ _. do 2 eexists. split; [reflexivity|]. split; [constructor|apply xR_S]. }
  destruct (Nat.lt_ge_cases (d + u) m) as [Hlt|Hge].
  - rewrite <- (Hsame u Hlt). specialize (F (Hsame u Hlt)). destruct (nth_error s (d + u)) as [c|]; [|exact F]. destruct (byte_eqb b c); [|exact F].
    apply R_bind.
    + intros _. do 2 eexists. split; [reflexivity|]. split; [|apply xR_S]. replace (S (d + u)) with (d + S u) by lia. replace (S (d' + u)) with (d' + S u) by lia. apply (rR_succ (S u) []).
    + intros v w0. apply IH.
  - assert (G : forall (r : res), S (d + u) <= snd r -> forall b', Rres r b').
    { intros [[[r|] w0] x] Hx b'; cbn [Rres snd] in *; [lia|exact I]. }
    apply G. destruct (nth_error s (d + u)) as [c|]; [|cbn; lia]. destruct (byte_eqb b c); [|cbn; lia]. cbn [ebind].
    destruct (lit_eval s l (S (d + u)) w) as [[[[| |]|] ?] ?]; cbn [snd]; lia.
Qed.
Lemma R_class : forall c u w, Rres (class_eval s c (d + u) w) (class_eval s' c (d' + u) w).
Proof.
  intros c u w. unfold class_eval. destruct (Nat.lt_ge_cases (d + u) m) as [Hlt|Hge].
  - rewrite <- (Hsame u Hlt). destruct (nth_error s (d + u)) as [b|]; intros _; do 2 eexists; (split; [reflexivity|]); (split; [|apply xR_S]); [|constructor].
    destruct (cs_has c b); [|constructor]. replace (S (d + u)) with (d + S u) by lia. replace (S (d' + u)) with (d' + S u) by lia. apply (rR_succ (S u) []).
  - destruct (nth_error s (d + u)); intro; lia.
Qed.
Lemma before_same : forall u, d + u < m -> byte_before s (d + u) = byte_before s' (d' + u).
Proof.
  intros [|u] Hu; [rewrite !Nat.add_0_r; exact Hbefore|]. rewrite <- !plus_n_Sm. cbn [byte_before]. apply Hsame. lia.
Qed.
Lemma R_emptyop : forall op u w, Rres (Some (if empty_op_holds s (d + u) op then RSucc (d + u) [] else RFail), w, S (d + u))
  (Some (if empty_op_holds s' (d' + u) op then RSucc (d' + u) [] else RFail), w, S (d' + u)).
Proof.
  intros op u w. cbn [Rres]. intro Hx.
  assert (E : empty_op_holds s (d + u) op = empty_op_holds s' (d' + u) op).
  { unfold empty_op_holds, assertion. rewrite (before_same u) by lia. rewrite (Hsame u) by lia. reflexivity. }
  rewrite <- E. do 2 eexists. split; [reflexivity|]. split; [|apply xR_S]. destruct (empty_op_holds s (d + u) op); [apply (rR_succ u [])|constructor].
Qed.

Lemma peeks_x : forall q, peeks q = true -> forall s0 (check0 : nat -> CS -> list byte -> list byte -> nat -> Z -> Z -> CS * option nat) n E i w r w' x,
  eval s0 check0 n E q i w = (Some r, w', x) -> S i <= x.
Proof.
  assert (B : forall (a : res) f r w x, ebind a f = (Some r, w, x) -> exists r0 w0 x0, a = (Some r0, w0, x0) /\ x0 <= x).
  { intros [[[[|j ts|j]|] w] x] f r w' x' H; cbn [ebind] in H; try discriminate; try (injection H as <- <- <-; eauto).
    do 3 eexists. split; [reflexivity|]. destruct (f j w) as [[[[| |]|] ?] ?]; inversion H; subst; lia. }
  assert (O : forall (a : res) f r w x, eorelse a f = (Some r, w, x) -> exists r0 w0 x0, a = (Some r0, w0, x0) /\ x0 <= x).
  { intros [[[[|j ts|j]|] w] x] f r w' x' H; cbn [eorelse] in H; try discriminate; try (injection H as <- <- <-; eauto).
    do 3 eexists. split; [reflexivity|]. destruct (f w) as [[? ?] ?]; inversion H; subst; lia. }
  assert (N : forall i (a : res) r w x, enot CS i a = (Some r, w, x) -> exists r0 w0 x0, a = (Some r0, w0, x0) /\ x0 <= x).
  { intros i [[[[|j ts|j]|] w] x] r w' x' H; cbn [enot] in H; try discriminate; injection H as <- <- <-; eauto. }
  assert (M : forall g (a : res) r w x, emap g a = (Some r, w, x) -> exists r0 w0 x0, a = (Some r0, w0, x0) /\ x0 <= x).
  { intros g [[[[|j ts|j]|] w] x] r w' x' H; cbn [emap] in H; try discriminate; injection H as <- <- <-; eauto. }
  induction q using pattern_ind'; intros Hp s0 check0 nn E i w r w' x0 He; cbn [peeks] in Hp; try discriminate Hp.
  - rewrite eval_alt in He. apply O in He. destruct He as (? & ? & ? & He & Hx). apply IHq1 in He; [lia|exact Hp].
  - rewrite eval_seq in He. apply B in He. destruct He as (? & ? & ? & He & Hx). apply IHq1 in He; [lia|exact Hp].
  - rewrite eval_star in He. apply O in He. destruct He as (? & ? & ? & He & Hx). apply B in He. destruct He as (? & ? & ? & He & Hx'). apply IHq in He; [lia|exact Hp].
  - rewrite eval_plus, eval_seq in He. apply B in He. destruct He as (? & ? & ? & He & Hx). apply IHq in He; [lia|exact Hp].
  - rewrite eval_opt, eval_alt in He. apply O in He. destruct He as (? & ? & ? & He & Hx). apply IHq in He; [lia|exact Hp].
  - rewrite eval_not in He. apply N in He. destruct He as (? & ? & ? & He & Hx). apply IHq in He; [lia|exact Hp].
  - rewrite eval_and in He. apply M in He. destruct He as (? & ? & ? & He & Hx). apply IHq in He; [lia|exact Hp].
  - rewrite eval_cap in He. apply M in He. destruct He as (? & ? & ? & He & Hx). apply IHq in He; [lia|exact Hp].
  - rewrite eval_memo in He. apply IHq in He; [lia|exact Hp].
  - rewrite eval_class in He. unfold class_eval in He. destruct (nth_error s0 i); injection He as <- <- <-; lia.
  - destruct l as [|b l]; [discriminate Hp|]. rewrite eval_lit in He. cbn [lit_eval] in He.
    destruct (nth_error s0 i) as [c|]; [|injection He as <- <- <-; lia]. destruct (byte_eqb b c); [|injection He as <- <- <-; lia].
    apply B in He. destruct He as (? & ? & ? & He & Hx). injection He as <- <- <-. lia.
  - destruct o as [q|]; [|discriminate Hp]. rewrite eval_inl in He. eapply H; eassumption.
  - rewrite eval_emptyop in He. injection He as <- <- <-. lia.
Qed.

Lemma eval_other : forall n q E, all_recorded E q -> forall u w, Rres (eval s check n E q (d + u) w) (eval s' check' n E q (d' + u) w).
Proof.
  induction n as [n IHn] using lt_wf_ind. induction q using pattern_ind'; intros E HR u w; try (destruct HR as [HR _]; discriminate HR).
  - assert (H1 : all_recorded E q1) by (destruct (recorded_child _ _ _ _ (ch_alt_l E q1 q2) HR) as [K| ->]; [exact K|destruct HR as [HR _]; discriminate HR]).
    assert (H2 : all_recorded E q2).
    { destruct (recorded_child _ _ _ _ (ch_alt_r E q1 q2) HR) as [K| ->]; [exact K|]. destruct HR as [HR _]. cbn [recorded] in HR. rewrite andb_false_r in HR. discriminate HR. }
    rewrite !eval_alt. apply R_orelse; [apply IHq1; exact H1|intro; apply IHq2; exact H2].
  - destruct (recorded_seq _ _ (proj1 HR)) as [[R1 R2]|(q & -> & -> & R1 & R2)].
    + assert (H1 : all_recorded E q1) by (destruct (recorded_child _ _ _ _ (ch_seq_l E q1 q2) HR) as [K| ->]; [exact K|discriminate R1]).
      assert (H2 : all_recorded E q2) by (destruct (recorded_child _ _ _ _ (ch_seq_r E q1 q2) HR) as [K| ->]; [exact K|discriminate R2]).
      rewrite !eval_seq. apply R_bind; [apply IHq1; exact H1|intros; apply IHq2; exact H2].
    + assert (H1 : all_recorded E (PNot q)) by (destruct (recorded_child _ _ _ _ (ch_seq_l E (PNot q) (PDot x01)) HR) as [K|K]; [exact K|discriminate K]).
      pose proof (IHq1 E H1 u w) as R. rewrite !eval_seq. destruct (eval s check n E (PNot q) (d + u) w) as [[[r|] w1] x1] eqn:E1; [|exact I].
      destruct r as [|j ts|j].
      * cbn [ebind Rres] in *. intro Hm. destruct (R Hm) as (r' & x' & -> & R3 & R4). inversion R3; subst. do 2 eexists. split; [reflexivity|]. split; [constructor|exact R4].
      * assert (Hx1 : S (d + u) <= x1 /\ j = d + u).
        { rewrite eval_not in E1. destruct (eval s check n E q (d + u) w) as [[[[| |]|] w2] x2] eqn:E2; cbn [enot] in E1; try discriminate.
          injection E1 as <- <- <- <-. split; [|reflexivity]. eapply peeks_x; eassumption. }
        destruct Hx1 as [Hx1 ->]. cbn [Rres] in R. cbn [ebind]. rewrite eval_dot. change (N.to_nat (bN x01)) with 1.
        destruct (Nat.leb_spec (d + u + 1) (List.length s)) as [L|L]; cbn [Rres]; rewrite Nat.max_0_r; intro Hm; destruct (R Hm) as (r' & x' & -> & R3 & R4);
          inversion R3 as [|u0 ts0 A B|]; subst; (assert (u0 = u) by lia); subst u0; cbn [ebind]; rewrite eval_dot; change (N.to_nat (bN x01)) with 1.
        -- destruct (Nat.leb_spec (d' + u + 1) (List.length s')) as [L'|L'].
           ++ do 2 eexists. split; [reflexivity|]. rewrite Nat.max_0_r. split; [|exact R4]. rewrite !app_nil_r, <- !Nat.add_assoc. constructor.
           ++ exfalso. pose proof (Hsame u ltac:(lia)) as Q. rewrite (proj2 (nth_error_None s' (d' + u))) in Q by lia. apply nth_error_None in Q. lia.
        -- destruct (Nat.leb_spec (d' + u + 1) (List.length s')) as [L'|L'].
           ++ exfalso. pose proof (Hsame u ltac:(lia)) as Q. rewrite (proj2 (nth_error_None s (d + u))) in Q by lia. symmetry in Q. apply nth_error_None in Q. lia.
           ++ do 2 eexists. split; [reflexivity|]. rewrite Nat.max_0_r. split; [constructor|exact R4].
      * cbn [ebind Rres] in *. intro Hm. destruct (R Hm) as (r' & x' & -> & R3 & R4). inversion R3; subst. do 2 eexists. split; [reflexivity|]. split; [constructor|exact R4].
  - assert (H1 : all_recorded E q) by (destruct (recorded_child _ _ _ _ (ch_star E q) HR) as [K| ->]; [exact K|destruct HR as [HR _]; discriminate HR]).
    rewrite !eval_star. apply R_orelse; [|intro; apply R_succ]. apply R_bind; [apply IHq; exact H1|]. intros v w0. destruct n as [|n]; [exact I|]. apply IHn; [lia|exact HR].
  - assert (H1 : all_recorded E q) by (destruct (recorded_child _ _ _ _ (ch_plus E q) HR) as [K| ->]; [exact K|destruct HR as [HR _]; discriminate HR]).
    assert (H2 : all_recorded E (PStar q)).
    { split; [exact (proj1 H1)|]. intros E1 x b E2 P. inversion P; subst. inversion H; subst. apply (proj2 H1). assumption. }
    rewrite !eval_plus, !eval_seq. apply R_bind; [apply IHq; exact H1|]. intros v w0.
    rewrite !eval_star. apply R_orelse; [|intro; apply R_succ]. apply R_bind; [apply IHq; exact H1|]. intros v' w1. destruct n as [|n]; [exact I|]. apply IHn; [lia|exact H2].
  - assert (H1 : all_recorded E q) by (destruct (recorded_child _ _ _ _ (ch_opt E q) HR) as [K| ->]; [exact K|destruct HR as [HR _]; discriminate HR]).
    rewrite !eval_opt, !eval_alt. apply R_orelse; [apply IHq; exact H1|]. intro. rewrite !eval_empty. apply R_succ.
  - assert (H1 : all_recorded E q) by (destruct (recorded_child _ _ _ _ (ch_not E q) HR) as [K| ->]; [exact K|destruct HR as [HR _]; discriminate HR]).
    rewrite !eval_not. apply R_not. apply IHq; exact H1.
  - assert (H1 : all_recorded E q) by (destruct (recorded_child _ _ _ _ (ch_and E q) HR) as [K| ->]; [exact K|destruct HR as [HR _]; discriminate HR]).
    rewrite !eval_and. apply R_map; [apply IHq; exact H1|]. intros v ts. constructor.
  - assert (H1 : all_recorded E q) by (destruct (recorded_child _ _ _ _ (ch_cap E q id) HR) as [K| ->]; [exact K|destruct HR as [HR _]; discriminate HR]).
    rewrite !eval_cap. apply R_map; [apply IHq; exact H1|]. intros v ts.
    replace [CNode id (d' + u) (d' + v - (d' + u)) (map (tmove mv) ts)] with (map (tmove mv) [CNode id (d + u) (d + v - (d + u)) ts]); [constructor|].
    cbn [map tmove]. unfold mv at 1. replace (d + u - d + d') with (d' + u) by lia. replace (d' + v - (d' + u)) with (d + v - (d + u)) by lia. reflexivity.
  - assert (H1 : all_recorded E q) by (destruct (recorded_child _ _ _ _ (ch_memo E q id) HR) as [K| ->]; [exact K|destruct HR as [HR _]; discriminate HR]).
    rewrite !eval_memo. apply IHq; exact H1.
  - rewrite !eval_grammar. destruct n as [|n]; [exact I|]. destruct (assoc defs st) as [b|] eqn:Ea; [|exact I]. apply IHn; [lia|].
    destruct (recorded_child _ _ _ _ (ch_grammar E defs st st b (assoc_in _ _ _ Ea)) HR) as [K| ->]; [exact K|].
    destruct HR as [HR _]. apply recorded_grammar in HR. rewrite Forall_forall in HR. discriminate (HR _ (assoc_in _ _ _ Ea)).
  - rewrite !eval_class. apply R_class.
  - rewrite !eval_lit. apply R_lit.
  - destruct o as [q|].
    + assert (H1 : all_recorded E q) by (destruct (recorded_child _ _ _ _ (ch_inlined E x q) HR) as [K| ->]; [exact K|destruct HR as [HR _]; discriminate HR]).
      rewrite !eval_inl. apply H; exact H1.
    + rewrite !eval_nt. destruct n as [|n]; [exact I|]. destruct (lookup E x) as [[b E']|] eqn:El; [|exact I]. apply IHn; [lia|].
      destruct (recorded_child _ _ _ _ (ch_nonterm E x b E' El) HR) as [K| ->]; [exact K|].
      discriminate (proj2 HR _ _ _ _ (part_self _ _) El).
  - rewrite !eval_emptyop. apply R_emptyop.
  - rewrite !eval_empty. apply R_succ.
Qed.
End Other.
