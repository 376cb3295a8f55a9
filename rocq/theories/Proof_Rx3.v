(** The conversion of regular expressions: the patterns are well formed and compile. *)
From Coq Require Import ZArith String.
From Verif Require Import Base Model_Charset Model_Isa Model_Capture Model_Code Model_VM Model_Pattern Model_Rxconv Spec_Peg Spec_Scope Spec_Run Spec_Rx Proof_Charset Proof_Eval Proof_Props2 Proof_Rx.
Local Open Scope nat_scope.

(* ---------- induction over the conversion ---------- *)
Section Build.
Variable Q : nat -> nat -> pattern -> Prop.
Hypothesis Qle : forall lo lo' hi hi' p, Q lo hi p -> lo' <= lo -> hi <= hi' -> Q lo' hi' p.
Hypothesis Qalt : forall lo hi a b, Q lo hi a -> Q lo hi b -> Q lo hi (PAlt a b).
Hypothesis Qseq : forall lo hi a b, Q lo hi a -> Q lo hi b -> Q lo hi (PSeq a b).
Hypothesis Qlit : forall lo hi l, Q lo hi (PLit l).
Hypothesis Qcls : forall lo hi l, Q lo hi (PClass l).
Hypothesis Qdot : forall lo hi, Q lo hi (PDot x01).
Hypothesis Qasr : forall lo hi a, Q lo hi (PEmptyOp a).
Hypothesis Qemp : forall lo hi, Q lo hi PEmpty.
Definition Qrep_ok (P : rx -> Prop) : Prop := forall e lo n k p n', P e -> Q lo n k -> lo <= n ->
  pi e (S n) (PNonTerm (uniq (S n)) None) = (p, n') -> Q lo n' (PGrammar [(uniq (S n), p_or [p; k])] (uniq (S n))).
Variable P : rx -> Prop.
Hypothesis Qrep : Qrep_ok P.
Lemma Qor : forall lo hi ps, Forall (Q lo hi) ps -> Q lo hi (p_or ps).
Proof.
  intros lo hi ps H. unfold p_or. apply Forall_rev in H. destruct (rev ps) as [|x l]; [apply Qemp|]. inversion H as [|? ? A B]; subst. clear H.
  revert x A. induction B as [|y l Y B IH]; intros x A; [exact A|]. cbn [fold_left]. apply IH. apply Qalt; assumption.
Qed.
Lemma Qbuild : forall e, all_parts (fun e => match e with RxStar _ e | RxPlus _ e => P e | _ => True end) e ->
  forall lo n k p n', Q lo n k -> lo <= n -> pi e n k = (p, n') -> Q lo n' p.
Proof.
  induction e using rx_ind'; intros F lo n k p n' K L Q1.
  - cbn in Q1. injection Q1 as <- <-. exact K.
  - cbn [pi] in Q1. injection Q1 as <- <-. apply Qseq; [apply Qlit|exact K].
  - cbn [pi] in Q1. injection Q1 as <- <-. apply Qor. apply Forall_forall. intros p Hp. unfold class_alts in Hp. apply in_flat_map in Hp. destruct Hp as ((a & b) & _ & Hp).
    destruct ((a <? 256) && (b <? 256))%N; [destruct Hp as [<-|[]]; apply Qseq; [apply Qcls|exact K]|]. apply in_map_iff in Hp. destruct Hp as (r & <- & _). apply Qseq; [apply Qlit|exact K].
  - cbn [pi] in Q1. injection Q1 as <- <-. apply Qseq; [apply Qdot|exact K].
  - cbn [pi] in Q1. injection Q1 as <- <-. apply Qseq; [apply Qcls|exact K].
  - rewrite pi_concat_eq in Q1. destruct F as [_ F]. apply all_parts_list in F. revert n k p n' K L Q1. induction H as [|e es He H IH]; intros n k p n' K L Q1; cbn [pi_seq] in Q1; [injection Q1 as <- <-; exact K|].
    inversion F; subst. destruct (pi_seq es n k) as [patt n1] eqn:Q2. apply (He ltac:(assumption) lo n1 patt p n'); [eapply (IH ltac:(assumption)); eassumption| |exact Q1].
    assert (n <= n1) by (rewrite <- pi_concat_eq in Q2; eapply pi_mono; exact Q2). lia.
  - rewrite pi_alt_eq in Q1. destruct F as [_ F]. apply all_parts_list in F. destruct (pi_alts es n k) as [alts n1] eqn:Q2. injection Q1 as <- <-. apply Qor.
    assert (G : n <= n1 /\ Forall (Q lo n1) alts); [|apply G]. revert n alts n1 K L Q2. induction H as [|e es He H IH]; intros n alts n1 K L Q2; cbn [pi_alts] in Q2; [injection Q2 as <- <-; split; [lia|constructor]|].
    inversion F; subst. destruct (pi e n k) as [p n2] eqn:Q3. destruct (pi_alts es n2 k) as [ps n3] eqn:Q4. injection Q2 as <- <-. pose proof (pi_mono _ _ _ _ _ Q3) as M.
    destruct (IH ltac:(assumption) n2 ps n3 ltac:(eapply Qle; [exact K|lia|lia]) ltac:(lia) Q4) as [G1 G2]. split; [lia|]. constructor; [|exact G2].
    eapply Qle; [|apply le_n|exact G1]. eapply (He ltac:(assumption)); eassumption.
  - cbn [pi] in Q1. eapply IHe; try eassumption. apply F.
  - destruct F as [F0 F]. cbn [pi] in Q1. destruct (pi e (S n) _) as [q n1] eqn:Q2. injection Q1 as <- <-. eapply Qrep; eassumption.
  - destruct F as [F0 F]. cbn [pi] in Q1. destruct (pi e (S n) _) as [q n1] eqn:Q2. eapply IHe; [exact F| | |exact Q1]; [eapply Qrep; eassumption|]. pose proof (pi_mono _ _ _ _ _ Q2). lia.
  - destruct F as [_ F]. cbn [pi] in Q1. destruct (pi e n k) as [q n1] eqn:Q2. injection Q1 as <- <-. apply Qor. constructor; [eapply IHe; eassumption|]. constructor; [|constructor].
    eapply Qle; [exact K|lia|]. eapply pi_mono. exact Q2.
  - cbn [pi] in Q1. injection Q1 as <- <-. apply Qseq; [apply Qasr|exact K].
  - cbn in Q1. injection Q1 as <- <-. apply Qemp.
Qed.
End Build.
Lemma all_parts_true : forall (P : rx -> Prop), (forall e, P e) -> forall e, all_parts P e.
Proof.
  intros P H. induction e using rx_ind'; (split; [apply H|]); try exact Logic.I; try exact IHe; (induction H0 as [|e es He H0 IH]; [exact Logic.I|split; assumption]).
Qed.

(* ---------- scopes ---------- *)
Definition scoped (lo hi : nat) (p : pattern) : Prop :=
  well_scoped p /\ unique_defs p /\ any_one p /\ (forall x, In x (bound_nts p) -> exists m, lo < m <= hi /\ x = uniq m) /\ forall x, In x (free_nts p) -> exists m, x = uniq m.
Lemma scoped_le : forall lo lo' hi hi' p, scoped lo hi p -> lo' <= lo -> hi <= hi' -> scoped lo' hi' p.
Proof. intros lo lo' hi hi' p (A & B & C & D & E) L H. repeat (split; [assumption|]). split; [|exact E]. intros x Hx. destruct (D x Hx) as (m & M & ->). exists m. split; [lia|reflexivity]. Qed.
Lemma scoped_alt : forall lo hi a b, scoped lo hi a -> scoped lo hi b -> scoped lo hi (PAlt a b).
Proof.
  intros lo hi a b (A & B & C & D & E) (A' & B' & C' & D' & E'). split; [split; assumption|]. split; [split; assumption|]. split; [split; assumption|].
  split; intros x Hx; cbn in Hx; apply in_app_or in Hx; destruct Hx; auto.
Qed.
Lemma scoped_seq : forall lo hi a b, scoped lo hi a -> scoped lo hi b -> scoped lo hi (PSeq a b).
Proof. exact scoped_alt. Qed.
Lemma scoped_leaf : forall lo hi p, match p with PLit _ | PClass _ | PDot x01 | PEmptyOp _ | PEmpty => True | _ => False end -> scoped lo hi p.
Proof.
  intros lo hi p H. destruct p; try contradiction; (split; [exact Logic.I|split; [exact Logic.I|split; [|split; intros x Hx; destruct Hx]]]); try exact Logic.I.
  match goal with |- any_one (PDot ?b) => destruct b; try contradiction; reflexivity end.
Qed.
Lemma scoped_rep : forall lo n k p n', scoped lo n k -> lo <= n -> n < n' -> scoped (S n) n' p -> (forall x, In x (free_nts p) -> exists m, x = uniq m) ->
  scoped lo n' (PGrammar [(uniq (S n), p_or [p; k])] (uniq (S n))).
Proof.
  intros lo n k p n' (A & B & C & D & E) L M (A' & B' & C' & D' & E') _. unfold p_or. cbn [rev app fold_left]. split; [|split; [|split; [|split]]].
  - cbn. split; [|exact Logic.I]. split; [split; assumption|]. intros x [<-|[]] Hx. apply in_app_or in Hx. destruct Hx as [Hx|Hx].
    + destruct (D' _ Hx) as (m & Hm & Em). apply uniq_inj in Em. lia.
    + destruct (D _ Hx) as (m & Hm & Em). apply uniq_inj in Em. lia.
  - cbn. split; [repeat constructor; intros []|]. auto.
  - cbn. auto.
  - cbn. intros x Hx. rewrite app_nil_r in Hx. apply in_app_or in Hx. destruct Hx as [Hx|Hx].
    + apply filter_In in Hx. destruct Hx as [_ Hx]. cbn in Hx. rewrite orb_false_r in Hx. exists (S n). split; [lia|]. unfold str_mem in Hx. apply String.eqb_eq in Hx. exact Hx.
    + apply in_app_or in Hx. destruct Hx as [Hx|Hx]; [destruct (D' _ Hx) as (m & Hm & ->)|destruct (D _ Hx) as (m & Hm & ->)]; exists m; (split; [lia|reflexivity]).
  - cbn. intros x Hx. apply filter_In in Hx. destruct Hx as [Hx _]. rewrite app_nil_r in Hx. apply in_app_or in Hx. destruct Hx; auto.
Qed.
Lemma pi_scoped : forall e lo n k p n', scoped lo n k -> lo <= n -> pi e n k = (p, n') -> scoped lo n' p.
Proof.
  assert (G : forall e, all_parts (fun e => match e with RxStar _ e | RxPlus _ e => forall lo n k p n', scoped lo n k -> lo <= n -> pi e n k = (p, n') -> scoped lo n' p | _ => True end) e ->
    forall lo n k p n', scoped lo n k -> lo <= n -> pi e n k = (p, n') -> scoped lo n' p).
  { apply (Qbuild scoped scoped_le scoped_alt scoped_seq); try (intros; apply scoped_leaf; exact Logic.I).
    intros e lo n k p n' H K L Q. pose proof (pi_mono _ _ _ _ _ Q) as M. assert (S1 : scoped (S n) n' p).
    { eapply H; [|apply le_n|exact Q]. split; [exact Logic.I|]. split; [exact Logic.I|]. split; [exact Logic.I|]. split; [intros x []|]. intros x [<-|[]]. eexists. reflexivity. }
    apply scoped_rep; try assumption; try lia. apply S1. }
  assert (A : forall e, all_parts (fun e => match e with RxStar _ e | RxPlus _ e => forall lo n k p n', scoped lo n k -> lo <= n -> pi e n k = (p, n') -> scoped lo n' p | _ => True end) e).
  { induction e using rx_ind'; (split; [try exact Logic.I; try (apply G; exact IHe)|]); try exact Logic.I; try exact IHe; (induction H as [|e es He H IH]; [exact Logic.I|split; assumption]). }
  intro e. apply G. apply A.
Qed.
Lemma uniq_S : forall m, uniq m <> "S"%string.
Proof. intros m H. unfold uniq in H. discriminate H. Qed.
Lemma from_regexp_supported : forall e n p n', from_regexp e n = Some (p, n') -> supported p.
Proof.
  intros e n p n' H. unfold from_regexp in H. destruct (verify e); [|discriminate]. destruct (pi e n PEmpty) as [q n1] eqn:Q. injection H as <- <-.
  destruct (pi_scoped e n n PEmpty q n1 (scoped_leaf _ _ PEmpty Logic.I) (le_n _) Q) as (A & B & C & _ & E). split; [|split; [exact B|exact C]].
  split; [exact A|]. cbn [free_nts]. intro Hx. destruct (E _ Hx) as (m & Em). symmetry in Em. exact (uniq_S m Em).
Qed.

(* ---------- names ---------- *)
Definition calls (c : list string) (p : pattern) : Prop := incl (call_nts p) c /\ forall x, ~ undefined x p.
Lemma calls_alt : forall c a b, calls c a -> calls c b -> calls c (PAlt a b).
Proof. intros c a b (A & B) (A' & B'). split; [cbn; apply incl_app; assumption|]. intros x [H|H]; [exact (B x H)|exact (B' x H)]. Qed.
Lemma calls_leaf : forall c p, match p with PLit _ | PClass _ | PDot x01 | PEmptyOp _ | PEmpty => True | _ => False end -> calls c p.
Proof. intros c p H. destruct p; try contradiction; (split; [intros x []|intros x []]). Qed.
Lemma pi_calls : forall c e n k p n', no_reps e -> calls c k -> pi e n k = (p, n') -> calls c p.
Proof.
  intros c e n k p n' F K Q. apply (Qbuild (fun _ _ => calls c)) with (e := e) (lo := n) (n := n) (k := k) (n' := n') (P := fun _ => False); try assumption; try (intros; apply calls_leaf; exact Logic.I); try lia.
  - intros; assumption.
  - intros. apply calls_alt; assumption.
  - intros. apply calls_alt; assumption.
  - intros e' lo m k' p' m' [].
Qed.
Lemma calls_rep : forall n k p, calls [uniq (S n)] p -> calls [] k -> calls [] (PGrammar [(uniq (S n), p_or [p; k])] (uniq (S n))).
Proof.
  intros n k p (A & B) (A' & B'). split; [intros x []|]. intros x Hx. unfold p_or in Hx. cbn [rev app fold_left undefined names map fst] in Hx.
  destruct Hx as [(N & [->|(y & d & [Hd|[]] & Hx)])|[[Hx|Hx]|[]]].
  - apply N. left. reflexivity.
  - injection Hd as <- <-. cbn [call_nts] in Hx. apply in_app_or in Hx. destruct Hx as [Hx|Hx]; [apply A in Hx; exact (N Hx)|apply A' in Hx; exact Hx].
  - exact (B x Hx).
  - exact (B' x Hx).
Qed.
Lemma pi_closed : forall e n k p n', flat_reps e -> calls [] k -> pi e n k = (p, n') -> calls [] p.
Proof.
  intros e n k p n' F K Q. apply (Qbuild (fun _ _ => calls [])) with (e := e) (lo := n) (n := n) (k := k) (n' := n') (P := no_reps); try assumption; try (intros; apply calls_leaf; exact Logic.I); try lia.
  - intros; assumption.
  - intros. apply calls_alt; assumption.
  - intros. apply calls_alt; assumption.
  - intros e' lo m k' p' m' N K' _ Q'. apply calls_rep; [|exact K']. eapply pi_calls; [exact N| |exact Q']. split; [intros x Hx; exact Hx|intros x []].
Qed.
Lemma from_regexp_defined : forall e n p n', flat_reps e -> from_regexp e n = Some (p, n') -> (forall x, ~ undefined x p) /\ call_nts p = [].
Proof.
  intros e n p n' F H. unfold from_regexp in H. destruct (verify e); [|discriminate]. destruct (pi e n PEmpty) as [q n1] eqn:Q. injection H as <- <-.
  destruct (pi_closed e n PEmpty q n1 F (calls_leaf _ PEmpty Logic.I) Q) as (A & B). split; [|reflexivity]. intros x [Hx|[_ Hx]]; [exact (B x Hx)|exact (A x Hx)].
Qed.
Lemma fits_verify : forall e, fits e -> verify e = true.
Proof.
  induction e using rx_ind'; intros F; try reflexivity; try (apply IHe; apply F).
  - destruct F as [_ F]. apply all_parts_list in F. cbn. induction H as [|e es He H IH]; [reflexivity|]. inversion F; subst. rewrite He, IH by assumption. reflexivity.
  - destruct F as [_ F]. apply all_parts_list in F. cbn. induction H as [|e es He H IH]; [reflexivity|]. inversion F; subst. rewrite He, IH by assumption. reflexivity.
  - destruct F as [[] _].
Qed.

(* ---------- an endless conversion: (a?)*b ---------- *)
Definition loop_rx : rx := RxConcat [RxStar true (RxCapture (RxQuest true (RxLit false [97%N]))); RxLit false [98%N]].
Definition loop_nt : pattern := PNonTerm "a1" None.
Definition loop_body : pattern := PAlt (PSeq (PLit [x61]) loop_nt) loop_nt.
Definition loop_def : pattern := PAlt loop_body (PSeq (PLit [x62]) PEmpty).
Lemma loop_peg : forall CS check E p i (w : world CS) r w', peg [x62] check E p i w r w' ->
  E = [[("a1"%string, loop_def)]] -> i = 0 -> p = loop_nt \/ p = loop_body \/ p = loop_def -> False.
Proof.
  intros CS check E p i w r w' H. induction H; intros EE Ei [Ep|[Ep|Ep]]; try discriminate; subst.
  all: try (injection Ep; intros; subst).
  all: try solve [apply IHpeg; auto].
  all: try solve [apply IHpeg1; auto].
  all: try solve [apply IHpeg2; auto].
  all: try solve [cbn in H; injection H as <- <-; apply IHpeg; auto].
  all: try solve [inversion H; subst; match goal with H : peg _ _ _ (PLit _) _ _ _ _ |- _ => inversion H; subst; discriminate end].
  inversion H; subst; match goal with H : peg _ _ _ (PLit _) _ _ _ _ |- _ => inversion H; subst; try discriminate; congruence end.
Qed.
Lemma loop_exec : forall code f, compiled 100 (PSearch (PCap (PGrammar [("a1"%string, loop_def)] "a1") 0)) code ->
  vm_exec 4 none_table (fun _ (cs : unit) _ _ _ _ _ => (cs, None)) None f code [x62] tt tt = None.
Proof.
  intros code f Hc. refine (exec_forever 4 _ unit _ [x62] _ 100 _ code None tt _ Hc _ f); [lia|intros k cs bs j id fl cs' n H; discriminate| |].
  - apply (from_regexp_supported loop_rx 0 _ 1). reflexivity.
  - intros r w' HR. assert (G : forall r w', ~ peg [x62] (fun _ (cs : unit) _ _ _ _ _ => (cs, None)) [] (PCap (PGrammar [("a1"%string, loop_def)] "a1") 0) 0 ([], tt) r w').
    { clear. intros r w' HR. assert (G : forall r w', ~ peg [x62] (fun _ (cs : unit) _ _ _ _ _ => (cs, None)) [] (PGrammar [("a1"%string, loop_def)] "a1") 0 ([], tt) r w').
      { clear. intros r w' HR. inversion HR; subst. match goal with H : assoc _ _ = Some _ |- _ => cbn in H; injection H as <- end. eapply loop_peg; [eassumption|reflexivity|reflexivity|auto]. }
      inversion HR; subst; eapply G; eassumption. }
    inversion HR; subst; eapply G; eassumption.
Qed.

(* ---------- the matches of an expression ---------- *)
Lemma match_or_not : forall t e, (exists a m, leftmost_first t e a m) \/ no_match t e.
Proof.
  intros t e. assert (Q : forall k, k <= S (List.length t) -> (exists a m, leftmost_first t e a m) \/ forall n, n < k -> ends t e n = []).
  { induction k as [|k IH]; intro L; [right; intros; lia|]. destruct (IH ltac:(lia)) as [H|H]; [left; exact H|]. destruct (ends t e k) as [|m more] eqn:E.
    - right. intros n Hn. destruct (Nat.eq_dec n k) as [->|N]; [exact E|apply H; lia].
    - left. exists k, m. split; [lia|]. split; [exists more; exact E|exact H]. }
  destruct (Q _ (le_n _)) as [H|H]; [left; exact H|right; intros n Hn; apply H; lia].
Qed.
Lemma leftmost_fun : forall t e a m a' m', leftmost_first t e a m -> leftmost_first t e a' m' -> m = m'.
Proof.
  intros t e a m a' m' (A & (more & B) & C) (A' & (more' & B') & C'). assert (a = a'); [|subst; congruence].
  destruct (Nat.lt_trichotomy a a') as [H|[H|H]]; [rewrite (C' a H) in B; discriminate|exact H|rewrite (C a' H) in B'; discriminate].
Qed.
Lemma verify_ok : forall e, verify e = true <-> all_parts (fun e => e <> RxOther) e.
Proof.
  induction e using rx_ind'; try (split; [intros _; split; [discriminate|exact Logic.I]|reflexivity]); try (cbn [verify all_parts]; rewrite IHe; split; [intro H; split; [discriminate|exact H]|tauto]).
  - cbn [verify all_parts]. assert (Q : forall A B : Prop, (A <-> B) -> (A <-> (RxConcat es <> RxOther /\ B))) by (intros A B [X Y]; split; [intro; split; [discriminate|auto]|intros [_ Z]; auto]). apply Q. clear Q.
    induction H as [|e es He H IH]; [tauto|]. rewrite andb_true_iff, He, IH. tauto.
  - cbn [verify all_parts]. assert (Q : forall A B : Prop, (A <-> B) -> (A <-> (RxAlt es <> RxOther /\ B))) by (intros A B [X Y]; split; [intro; split; [discriminate|auto]|intros [_ Z]; auto]). apply Q. clear Q.
    induction H as [|e es He H IH]; [tauto|]. rewrite andb_true_iff, He, IH. tauto.
  - split; [discriminate|intros [H _]; contradiction].
Qed.
Lemma from_regexp_none : forall e n, from_regexp e n = None <-> ~ all_parts (fun e => e <> RxOther) e.
Proof.
  intros e n. rewrite <- verify_ok. unfold from_regexp. destruct (verify e); [destruct (pi e n PEmpty)|]; split; intro H; try discriminate; try reflexivity; try congruence. 
Qed.

(* ---------- the bytes of characters ---------- *)
Local Open Scope N_scope.
Lemma utf8_spells : forall r, (r < 0xD800 \/ 0xDFFF < r) /\ r <= 0x10FFFF -> scalar r /\ spells (utf8 r) r.
Proof.
  intros r [H0 H1]. assert (H2 : surrogate r = false).
  { unfold surrogate. destruct (N.leb_spec 0xD800 r), (N.leb_spec r 0xDFFF); try reflexivity. lia. }
  split; [split; assumption|]. unfold utf8. rewrite H2.
  assert (E2 : r / 4096 = r / 64 / 64) by (rewrite N.div_div by discriminate; reflexivity).
  assert (E3 : r / 262144 = r / 64 / 64 / 64) by (rewrite !N.div_div by discriminate; reflexivity). rewrite E3, E2. clear E2 E3 H2.
  pose proof (N.div_mod r 64 ltac:(discriminate)) as D1. pose proof (N.mod_lt r 64 ltac:(discriminate)) as L1.
  pose proof (N.div_mod (r / 64) 64 ltac:(discriminate)) as D2. pose proof (N.mod_lt (r / 64) 64 ltac:(discriminate)) as L2.
  pose proof (N.div_mod (r / 64 / 64) 64 ltac:(discriminate)) as D3. pose proof (N.mod_lt (r / 64 / 64) 64 ltac:(discriminate)) as L3.
  generalize dependent (r / 64 / 64 / 64). intro q3. generalize dependent ((r / 64 / 64) mod 64). intro m3. generalize dependent (r / 64 / 64). intro q2. generalize dependent ((r / 64) mod 64). intro m2.
  generalize dependent (r / 64). intro q1. generalize dependent (r mod 64). intro m1. intros.
  destruct (N.ltb_spec r 0x80) as [A|A].
  { replace r with (bN (N2b r)) at 2 by (apply bN_N2b; lia). apply spells1. rewrite bN_N2b by lia. exact A. }
  destruct (N.ltb_spec r 0x800) as [B|B].
  { replace r with (q1 * 64 + m1) by lia. apply spells2; try (apply bN_N2b); lia. }
  destruct (N.ltb_spec 0x10FFFF r) as [C|C]; [lia|]. cbn [orb].
  destruct (N.ltb_spec r 0x10000) as [D|D].
  { replace r with (q2 * 4096 + m2 * 64 + m1) by lia. apply spells3; try (apply bN_N2b); lia. }
  replace r with (q3 * 262144 + m3 * 4096 + m2 * 64 + m1) by lia. apply spells4; try (apply bN_N2b); lia.
Qed.
