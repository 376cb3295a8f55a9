(** The printed form of a grammar with legible definitions tells its meaning (C53). *)
From Coq Require Import String Permutation.
From Verif Require Import Base Model_Charset Proof_Charset Model_Isa Model_Capture Model_VM Model_Pattern Spec_Peg Spec_Scope Spec_Run Spec_Props Proof_Eval Proof_Inline Proof_Get Proof_Spec
  Model_String Spec_String Proof_String Model_Pretty Spec_Pretty Proof_Pretty.
Local Open Scope list_scope.
Local Open Scope nat_scope.

(* ---------- scopes with definitions that mean the same ---------- *)
Section Scopes.
Variable cap : bool.
Definition frel (F F' : frame) : Prop := forall x,
  match assoc F x, assoc F' x with Some b, Some b' => same_eval cap b b' | None, None => True | _, _ => False end.
Definition erel : env -> env -> Prop := Forall2 frel.
Lemma se_refl : forall p, same_eval cap p p. Proof. intros p s CS check n E i w. reflexivity. Qed.
Lemma frel_refl : forall F, frel F F. Proof. intros F x. destruct (assoc F x); [apply se_refl|exact I]. Qed.
Lemma erel_refl : forall E, erel E E. Proof. induction E; constructor; [apply frel_refl|assumption]. Qed.
Lemma lookup_rel : forall E E' x, erel E E' ->
  match lookup E x, lookup E' x with Some (b, E1), Some (b', E1') => same_eval cap b b' /\ erel E1 E1' | None, None => True | _, _ => False end.
Proof.
  intros E E' x H. induction H as [|F F' E E' HF HE IH]; [exact I|]. cbn [lookup]. pose proof (HF x) as K.
  destruct (assoc F x), (assoc F' x); try contradiction; [split; [exact K|constructor; assumption]|exact IH].
Qed.
Lemma rm_check : forall s CS check ck id fl i (a b : res CS), rmap cap a = rmap cap b -> rmap cap (echeck s CS check ck id fl i a) = rmap cap (echeck s CS check ck id fl i b).
Proof.
  intros s CS check ck id fl i [[[[|j ts|j]|] [er cs]] x] [[[[|j' ts'|j']|] [er' cs']] x'] H; cbn [rmap] in H; try discriminate; injection H; intros; subst; try reflexivity.
  cbn [echeck]. destruct (check _ _ _ _ _ _ _) as [c [m|]]; cbn [rmap]; congruence.
Qed.
Lemma env_eval : forall s CS check n p E E' i w, erel E E' -> rmap cap (eval s (CS:=CS) check n E p i w) = rmap cap (eval s check n E' p i w).
Proof.
  intros s CS check. induction n as [|n IHn]; induction p using pattern_ind'; intros E E' i w HE;
  rewrite ?eval_plus, ?eval_opt, ?eval_alt, ?eval_seq, ?eval_not, ?eval_and, ?eval_cap, ?eval_memo,
    ?eval_check, ?eval_search, ?eval_grammar, ?eval_lit, ?eval_class, ?eval_dot, ?eval_emptyop, ?eval_empty; try reflexivity;
  try (apply rm_orelse; [eapply IHp1 | intros; eapply IHp2]; exact HE);
  try (apply rm_bind; [eapply IHp1 | intros; eapply IHp2]; exact HE);
  try (apply rm_orelse; [apply IHp, HE|intros; rewrite !eval_empty; reflexivity]);
  try (apply rm_not, IHp, HE); try (apply rm_check, IHp, HE); try (apply IHp, HE);
  try (apply rm_map; [apply IHp, HE|]; intros j ts us v x K; cbn [rmap]; first [rewrite K; reflexivity|unfold hide in *; destruct cap; cbn [map anon_tree] in *; rewrite K; reflexivity]);
  try (destruct o as [q|]; simpl in H; rewrite ?eval_inl, ?eval_nt, ?eval_error, ?eval_error_none; first [reflexivity|apply H, HE|idtac]);
  rewrite ?eval_star.
  - apply rm_orelse; [|reflexivity]. apply rm_bind; [apply IHp, HE|reflexivity].
  - apply rm_bind; [apply IHp, HE|]. intros. rewrite !eval_star. apply rm_orelse; [|reflexivity]. apply rm_bind; [apply IHp, HE|reflexivity].
  - apply rm_orelse; [|reflexivity]. apply rm_bind; [apply IHp, HE|]. intros. apply IHn, HE.
  - apply rm_bind; [apply IHp, HE|]. intros. rewrite !eval_star. apply rm_orelse; [|reflexivity]. apply rm_bind; [apply IHp, HE|]. intros. apply IHn, HE.
  - destruct (assoc defs st); [|reflexivity]. apply IHn. constructor; [apply frel_refl|exact HE].
  - apply rm_orelse; [apply IHn, HE|]. intros. destruct (i <? _); [|reflexivity]. apply IHn, HE.
  - pose proof (lookup_rel _ _ x HE) as K. destruct (lookup E x) as [[b E1]|], (lookup E' x) as [[b' E1']|]; try contradiction; [|reflexivity].
    destruct K as [K1 K2]. rewrite (IHn _ _ _ _ _ K2). apply K1.
Qed.
Lemma grammar_same : forall F F' st, frel F F' -> same_eval cap (PGrammar F st) (PGrammar F' st).
Proof.
  intros F F' st H s CS check n E i w. rewrite !eval_grammar. destruct n as [|n]; [reflexivity|]. pose proof (H st) as K.
  destruct (assoc F st) as [b|], (assoc F' st) as [b'|]; try contradiction; [|reflexivity].
  rewrite (env_eval _ _ _ _ _ (F :: E) (F' :: E)) by (constructor; [exact H|apply erel_refl]). apply K.
Qed.
Lemma frel_of : forall l l', Forall2 (fun a b => fst a = fst b /\ same_eval cap (snd a) (snd b)) l l' -> frel l l'.
Proof.
  intros l l' H x. induction H as [|[k v] [k' v'] l l' [Hk Hv] H IH]; [exact I|]. cbn [assoc fst snd] in *. subst k'.
  destruct (String.eqb k x); [exact Hv|exact IH].
Qed.
End Scopes.

(* ---------- reading the lines ---------- *)
Lemma inline_names : forall thr n defs, map fst (inline_n thr n defs) = map fst defs.
Proof.
  intros thr. induction n as [|n IH]; intro defs; [reflexivity|]. cbn [inline_n]. destruct (did_inline thr defs); [|reflexivity].
  rewrite IH. unfold inline_pass. rewrite map_map. reflexivity.
Qed.
Section Lines.
Variable quote : list byte -> list byte.
Hypothesis Q : quotes quote.
Variables thr thr' : nat.
Variables order order' : list (string * pattern) -> list (string * pattern).
Variable cap : bool.
Lemma text_inj : forall x y, txt x = txt y -> x = y.
Proof. intros x y H. rewrite <- (name_back x), <- (name_back y). unfold txt in H. rewrite H. reflexivity. Qed.
Lemma name_split : forall x y t u, forallb ident (txt x) = true -> forallb ident (txt y) = true -> open_after t -> open_after u -> txt x ++ t = txt y ++ u -> x = y /\ t = u.
Proof.
  intros x y t u Hx Hy Ht Hu H. pose proof (span_app _ _ Hx Ht) as S1. pose proof (span_app _ _ Hy Hu) as S2. rewrite H, S2 in S1.
  injection S1 as A B. split; [apply text_inj; symmetry; exact A|symmetry; exact B].
Qed.
Lemma lines_same : forall f g l l' T, pretty_defs (pretty quote thr order f) l = Some T -> pretty_defs (pretty quote thr' order' g) l' = Some T ->
  Forall (fun d => name_ok (fst d) /\ exists b, legible cap b (get (snd d))) l -> Forall (fun d => name_ok (fst d) /\ exists b, legible cap b (get (snd d))) l' ->
  Forall2 (fun a b => fst a = fst b /\ same_eval cap (snd a) (snd b)) l l'.
Proof.
  destruct Q as (Q1 & Q2 & un & Q3).
  intros f g. induction l as [|[x p] l IH]; intros [|[y q] l'] T H H' L L'; cbn [pretty_defs] in H, H'.
  - constructor.
  - exfalso. injection H as <-. destruct (pretty quote thr' order' g (get q)); [|discriminate]. destruct (pretty_defs _ l'); [|discriminate]. apply Forall_inv in L'. destruct L' as [[N _] _]. cbn [fst] in N.
    apply some_inj in H'. unfold txt in H'. destruct y; [congruence|discriminate].
  - exfalso. injection H' as <-. destruct (pretty quote thr order f (get p)); [|discriminate]. destruct (pretty_defs _ l); [|discriminate]. apply Forall_inv in L. destruct L as [[N _] _]. cbn [fst] in N.
    apply some_inj in H. unfold txt in H. destruct x; [congruence|discriminate].
  - destruct (pretty quote thr order f (get p)) as [t|] eqn:Ep; [|discriminate]. destruct (pretty_defs (pretty quote thr order f) l) as [ts|] eqn:El; [|discriminate].
    destruct (pretty quote thr' order' g (get q)) as [u|] eqn:Eq; [|discriminate]. destruct (pretty_defs (pretty quote thr' order' g) l') as [us|] eqn:El'; [|discriminate].
    apply some_inj in H. apply some_inj in H'. subst T.
    pose proof (Forall_inv L) as [[_ Nx] (b & Lp)]. pose proof (Forall_inv L') as [[_ Ny] (b' & Lq)]. cbn [fst snd] in *.
    apply name_split in H'; [|exact Ny|exact Nx|split; [reflexivity|discriminate]|split; [reflexivity|discriminate]]. destruct H' as [-> H'].
    apply app_inv_head in H'. change ([x0a] ++ us) with (x0a :: us) in H'. change ([x0a] ++ ts) with (x0a :: ts) in H'.
    destruct (pretty_reads quote thr order un Q1 Q2 Q3 cap _ _ _ _ Ep Lp) as (p' & Sp & _ & Rp).
    destruct (pretty_reads quote thr' order' un Q1 Q2 Q3 cap _ _ _ _ Eq Lq) as (q' & Sq & _ & Rq).
    destruct (Rp (max f g) (x0a :: ts) ltac:(lia)) as [_ A1]. destruct (Rq (max f g) (x0a :: us) ltac:(lia)) as [_ A2].
    specialize (A1 ltac:(simpl; repeat split; discriminate)). specialize (A2 ltac:(simpl; repeat split; discriminate)).
    rewrite H', A1 in A2. injection A2 as -> ->. constructor.
    + split; [reflexivity|]. cbn [snd]. eapply se_trans; [|apply se_get]. eapply se_trans; [|exact Sq]. eapply se_trans; [apply se_sym, se_get|]. apply se_sym, Sp.
    + eapply IH; [reflexivity|exact El'|exact (Forall_inv_tail L)|exact (Forall_inv_tail L')].
Qed.
End Lines.

Theorem grammar_read : forall quote thr thr' order order' cap f g defs defs' start start' t, quotes quote ->
  (forall l, Permutation (order l) l) -> (forall l, Permutation (order' l) l) ->
  pretty quote thr order f (PGrammar defs start) = Some t -> pretty quote thr' order' g (PGrammar defs' start') = Some t ->
  readable_grammar cap thr defs start -> readable_grammar cap thr' defs' start' ->
  start = start' /\ same_eval cap (PGrammar (inline_all thr defs) start) (PGrammar (inline_all thr' defs') start').
Proof.
  intros quote thr thr' order order' cap [|f] [|g] defs defs' start start' t Q O O' H H' (R1 & R2 & R3) (S1 & S2 & S3); try discriminate.
  cbn [pretty] in H, H'. change (get (PGrammar defs start)) with (PGrammar defs start) in H. change (get (PGrammar defs' start')) with (PGrammar defs' start') in H'. cbn iota beta in H, H'.
  destruct (pretty_defs _ (order (inline_all thr defs))) as [T|] eqn:E; [|discriminate]. destruct (pretty_defs _ (order' (inline_all thr' defs'))) as [T'|] eqn:E'; [|discriminate].
  apply some_inj in H. apply some_inj in H'. subst t. apply name_split in H'; [|exact S1|exact R1|split; [reflexivity|discriminate]|split; [reflexivity|discriminate]].
  destruct H' as [-> H']. injection H' as ->. split; [reflexivity|]. apply grammar_same.
  assert (X : Forall2 (fun a b => fst a = fst b /\ same_eval cap (snd a) (snd b)) (order (inline_all thr defs)) (order' (inline_all thr' defs'))).
  { eapply lines_same; [exact Q|exact E|exact E'| |]; (eapply Permutation_Forall; [apply Permutation_sym; first [apply O|apply O']|assumption]). }
  apply frel_of in X. intro x. specialize (X x).
  rewrite (assoc_perm (inline_all thr defs) (order (inline_all thr defs)) x) by (first [unfold inline_all; rewrite inline_names; exact R2|apply Permutation_sym, O]).
  rewrite (assoc_perm (inline_all thr' defs') (order' (inline_all thr' defs')) x) by (first [unfold inline_all; rewrite inline_names; exact S2|apply Permutation_sym, O']).
  exact X.
Qed.
Lemma grammar_in : forall thr s CS check E defs start i w r w', well_scoped (PGrammar defs start) ->
  (peg s (CS:=CS) check E (PGrammar (inline_all thr defs) start) i w r w' <-> peg s check E (PGrammar defs start) i w r w').
Proof. intros. apply inline_all_peg. eapply ws_dok; eassumption. Qed.
