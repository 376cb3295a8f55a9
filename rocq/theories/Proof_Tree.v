(** Any number of parses and edits, when every memoized pattern stands below a star and looks at no more than one byte
    after the part that it matches. *)
From Coq Require Import ZArith.
From Verif Require Import Base Model_Charset Model_Isa Model_Capture Model_Input Spec_Input Model_Code Model_VM Model_Pattern Spec_Peg Spec_Scope Spec_Run Proof_Eval Proof_Input Proof_Get Proof_Inline Proof_Sim Proof_Optimize Proof_Encode Proof_Codegen Proof_Machine Proof_Frag Proof_Compile Proof_Emit Proof_Main Model_Interval Spec_Interval Proof_Interval4 Model_Table Spec_Memo Spec_Rounds Proof_Memo Proof_Memo2 Proof_Memo3 Proof_Memo4 Proof_Memo5.
Local Open Scope nat_scope.
Arguments Nat.max : simpl never.

(* ---------- starred patterns ---------- *)
Definition all_starred (defs : list (string * pattern)) : Prop := Forall (fun d => starred (snd d) = true) defs.
Lemma starred_grammar : forall defs st, starred (PGrammar defs st) = true <-> all_starred defs.
Proof.
  intros defs st. unfold all_starred. cbn [starred]. induction defs as [|[k q] l IH]; [split; auto|]. rewrite andb_true_iff, IH. split; [intros [A B]; constructor; assumption|intro H; inversion H; auto].
Qed.
Lemma starred_star : forall q, (forall q' id, q <> PMemo q' id) -> starred (PStar q) = starred q.
Proof. intros q H. destruct q; try reflexivity. destruct (H q id). reflexivity. Qed.
Lemma starred_memo : forall p q id, starred p = true -> p <> PMemo q id.
Proof. intros p q id H ->. discriminate. Qed.
Lemma starred_star_of : forall q, starred q = true -> starred (PStar q) = true.
Proof. intros q H. rewrite starred_star; [exact H|]. intros. apply starred_memo. exact H. Qed.
Lemma starred_get_f : forall n p, starred p = true -> starred (get_f n p) = true.
Proof.
  induction n as [|n IH]; intros p H; [exact H|]. destruct p; cbn [get_f]; try exact H.
  - pose proof H as H0. cbn [starred] in H. apply andb_true_iff in H. destruct H as [Hl Hr]. apply IH in Hl. apply IH in Hr.
    destruct (get_f n p1) eqn:E1; try reflexivity; destruct (get_f n p2) eqn:E2; try exact H0; try (apply IH; cbn [starred]; exact Hl);
      match goal with |- context [combine ?a ?b] => destruct (combine a b); [reflexivity|exact H0] end.
  - pose proof H as H0. cbn [starred] in H. apply andb_true_iff in H. destruct H as [Hl Hr]. apply IH in Hl. apply IH in Hr.
    destruct (get_f n p2) eqn:E2; try exact Hl; destruct (get_f n p1) eqn:E1; try exact H0; try exact Hr;
      match goal with |- context [get_not_seq ?a ?b ?c] => destruct (get_not_seq_cases a b c) as [->|(set & ->)]; [exact H0|reflexivity] end.
  - pose proof (IH p H) as G. destruct (get_f n p) eqn:E1; try exact H. exact G.
  - destruct inl; exact H.
Qed.
Lemma starred_get : forall p, starred p = true -> starred (get p) = true.
Proof. intro p. apply starred_get_f. Qed.
Definition below (p : pattern) : pattern := match p with PMemo q _ => q | p => p end.
Lemma starred_inline_in : forall f, (forall x q, f x = Some q -> starred q = true) -> forall p,
  (starred p = true -> starred (inline_in f p) = true) /\ (starred (below p) = true -> starred (inline_in f (below p)) = true).
Proof.
  intros f Hf p. induction p using pattern_ind'; (match goal with |- _ /\ (starred (below (PMemo _ _)) = true -> _) => split; [discriminate|exact (proj1 IHp)] | |- _ => cbn [below] end);
    (match goal with |- ?A /\ _ => assert (Q : A); [|split; exact Q] end).
  all: try (cbn [starred inline_in]; rewrite !andb_true_iff; tauto).
  all: try (cbn [starred inline_in]; tauto).
  - cbn [inline_in]. intro S. destruct p; try (apply starred_star_of; apply (proj1 IHp); exact S). cbn [inline_in starred]. exact (proj2 IHp S).
  - intro S. apply starred_grammar in S. cbn [inline_in]. apply starred_grammar. unfold all_starred in *.
    induction defs as [|[k q] l IHl]; [constructor|]. inversion H; subst. inversion S; subst. constructor; [cbn [snd] in *; tauto|]. apply IHl; assumption.
  - destruct o as [q|]; cbn [inline_in starred]; [exact (proj1 H)|]. intros _. destruct (f x) as [q|] eqn:E; [|reflexivity]. eapply Hf. exact E.
  - destruct o as [q|]; cbn [inline_in starred]; [exact (proj1 H)|auto].
Qed.
Lemma starred_pass : forall thr defs, all_starred defs -> all_starred (inline_pass thr defs).
Proof.
  intros thr defs H. unfold all_starred, inline_pass in *. rewrite Forall_forall in *. intros d Hd. apply in_map_iff in Hd. destruct Hd as ([k q] & <- & Hk). cbn [fst snd].
  apply starred_inline_in; [|exact (H _ Hk)]. intros x b Hx. unfold inline_choice in Hx. destruct (assoc defs x) as [b'|] eqn:E; [|discriminate]. destruct (_ && _); [|discriminate]. injection Hx as ->. exact (H _ (assoc_in _ _ _ E)).
Qed.
Lemma starred_all : forall thr defs, all_starred defs -> all_starred (inline_all thr defs).
Proof.
  intros thr defs. unfold inline_all. generalize (S (count_open defs)) as n. intro n. revert defs. induction n as [|n IH]; intros defs H; [exact H|]. cbn [inline_n]. destruct (did_inline thr defs); [|exact H]. apply IH. apply starred_pass. exact H.
Qed.
Lemma starred_def : forall thr defs st x b, starred (PGrammar defs st) = true -> assoc (inline_all thr defs) x = Some b -> starred b = true.
Proof.
  intros thr defs st x b H Hb. apply starred_grammar in H. apply (starred_all thr) in H. unfold all_starred in H. rewrite Forall_forall in H. exact (H _ (assoc_in _ _ _ Hb)).
Qed.

(** their code memoizes repetitions only *)
Lemma CG_tree : forall thr M T E p c, CG thr M T E p c -> starred p = true -> CG thr (fun _ _ _ => False) T E p c.
Proof.
  intros thr M T E p c H. induction H; intro HS; try (pose proof HS as HS0; cbn [starred] in HS; rewrite ?andb_true_iff in HS); try discriminate.
  - apply cg_get. apply IHCG. apply starred_get. exact HS0.
  - apply cg_alt_set. assumption.
  - apply cg_alt; [apply IHCG1|apply IHCG2]; tauto.
  - eapply cg_alt_test; try eassumption; [apply IHCG1|apply IHCG2]; tauto.
  - apply cg_seq; [apply IHCG1|apply IHCG2]; tauto.
  - apply cg_star_span. assumption.
  - eapply cg_star_tree; try eassumption. apply IHCG. destruct q; try (match type of H with get ?a = _ => pose proof (starred_get a HS) as G end; rewrite H in G; discriminate). unfold get in H. cbn in H. injection H as -> ->. exact HS.
  - apply cg_star; [assumption|]. apply IHCG. rewrite starred_star in HS0; [exact HS0|]. intros q' id ->. eapply H. reflexivity.
  - apply cg_plus; [|apply IHCG2; exact HS]. apply IHCG1. apply starred_star_of. apply starred_get. exact HS.
  - apply cg_opt_char. assumption.
  - apply cg_opt_set. assumption.
  - apply cg_opt. apply IHCG. cbn [starred]. rewrite andb_true_r. apply starred_get. exact HS.
  - apply cg_not. auto.
  - apply cg_and. auto.
  - apply cg_cap_begin. auto.
  - apply cg_cap_full; auto.
  - apply cg_cap_late; auto.
  - apply cg_check. auto.
  - apply cg_emptyop.
  - eapply cg_grammar_leaf; try eassumption. apply IHCG. eapply starred_def; eassumption.
  - eapply cg_grammar; try eassumption. intros b Hb. apply H2; [exact Hb|]. eapply starred_def; [exact HS0|]. apply H0. exact Hb.
  - apply cg_class.
  - apply cg_lit.
  - apply cg_nt.
  - apply cg_inl. auto.
  - apply cg_dot. assumption.
  - apply cg_err_none.
  - apply cg_err. auto.
  - apply cg_empty.
Qed.

(* ---------- rounds ---------- *)
(** matching a memoized pattern on [s] looks at no more than one byte after the part that it matches *)
Definition near (p : pattern) (CS : Type) (check : nat -> CS -> list byte -> list byte -> nat -> Z -> Z -> CS * option nat) (s : list byte) : Prop :=
  forall id E q, memoized p id E q -> forall n i w j ts w' x, eval s check n E q i w = (Some (RSucc j ts), w', x) -> x <= S j.

Section Rounds.
Variable bufsz : nat.
Hypothesis Hbuf : 0 < bufsz.
Variables (thr : nat) (p : pattern) (code : code) (M0 : Z) (Tl : list tent).
Hypothesis HR : ready thr p code M0 Tl.
Variable threshold : Z.
Variable CS : Type.
Variable check : nat -> CS -> list byte -> list byte -> nat -> Z -> Z -> CS * option nat.
Hypothesis HC : memo_recorded p.
Hypothesis HST : starred p = true.
Notation TE := (TE p M0 Tl CS check).

Section Text.
Variable s : list byte.
Hypothesis Hck : check_ok check s.
Hypothesis HN : near p CS check s.
Variable b : bool.
Notation TF := (TF p M0 Tl CS check s b).
Lemma reps_near : forall id E q, MOK p M0 id E q -> forall i w j w' ts x, reps1 CS check s E q i w j w' ts x -> i <= j /\ x <= S j.
Proof.
  intros id E q [_ (E1 & q1 & M1 & S1)]. assert (K : forall n i w j ts w' x, eval s check n E q i w = (Some (RSucc j ts), w', x) -> i <= j /\ x <= S j).
  { intros n i w j ts w' x He. split; [exact (proj1 (peg_from _ _ _ _ _ _ _ _ _ (eval_sound _ _ _ _ _ _ _ _ _ _ _ He)))|].
    destruct (proj2 (S1 s CS check i w (RSucc j ts) w' x)) as (n1 & He1); [eauto|]. eapply HN; eassumption. }
  intros i w j w' ts x H. induction H as [n i w j w' ts x He|n i w j w1 ts x k w' us y He Hr IH]; [eapply K; exact He|].
  apply K in He. lia.
Qed.
Lemma tree_tget : forall tbl F id E q i w e, TF tbl F -> tin Tl id E q -> i <= List.length s -> fst (t_get (tree_table threshold) tbl id i) = Some e ->
  exists len ts x, me_len e = Some len /\ reps1 CS check s E q i w (i + len) w ts x /\ True /\ flat (me_capt e) = pr None ts.
Proof.
  intros tbl F id E q i w e HT HM Hi He. apply TE_soft in HT.
  destruct (H_tget p M0 Tl CS check s false threshold tbl 0 id E q i w e HT HM Hi He) as (len & ts & x & A & B & _ & D). exists len, ts, x. auto.
Qed.
Lemma tree_tput : forall tbl F id E q i w j ts w' x cs cnt, TF tbl F -> tin Tl id E q -> i <= List.length s ->
  reps1 CS check s E q i w j w' ts x -> True -> flat cs = pr None ts ->
  TF (t_put (tree_table threshold) tbl id i (Some (j - i)) (Nat.max F j - i + 1) cnt (Proof_Machine.stored None cs)) F.
Proof.
  intros tbl F id E q i w j ts w' x cs cnt HT HM Hi He _ Hc. apply (TF_put bufsz Hbuf); [exact HT| |lia]. rewrite pr_clip in Hc. cbn [clip] in Hc.
  intros en E1 E2 E3. cbn [Proof_Machine.stored] in E2. destruct (rd_mok _ _ _ _ _ HR _ _ _ HM) as (mid & HM0).
  destruct (reps_pure p M0 CS check s true (hard_pure p M0 CS check HC s) _ _ _ HM0 _ _ _ _ _ _ He) as (-> & Hj & Hts & Hv).
  split; [rewrite E2, E3, Hc; exact Hts|]. rewrite E1, (moved_same _ _ E3), E2, Hc. split.
  - intros E' q' HM'. exfalso. destruct HR as [_ R2 _ _]. eapply mok_tin; eassumption.
  - intros E' q' HM'. destruct HR as [R1 _ _ _]. destruct (tok_once Tl R1 _ _ _ _ _ HM HM') as [<- <-]. exists (j - i). split; [reflexivity|]. intro v. replace (i + (j - i)) with j by lia.
    destruct (Hv v) as (x1 & A1 & A2). exists x1. split; [exact A1|]. rewrite (A2 eq_refl). destruct (reps_near _ _ _ HM0 _ _ _ _ _ _ He). lia.
Qed.
Lemma tree_step : forall t cs r w' f o st, TE b s t -> peg s check [] p 0 ([], cs) r w' ->
  vm_exec bufsz (tree_table threshold) check None f code s t cs = Some (ROk o st) -> TE b s (m_tbl st).
Proof.
  intros t cs r w' f o st Ht Hp Hx. pose proof HR as HR'. destruct HR' as [_ _ _ (c & l & lo & hi & HG & HL & HS & HE)].
  destruct (eval_complete _ _ _ _ _ _ _ _ _ Hp) as (n & x & Hn). apply CG_tree in HG; [|exact HST].
  edestruct (run_code bufsz Hbuf ttable (tree_table threshold) CS check None s False (False_ind _) thr (fun _ _ _ => False) (tin Tl) Hck (fun _ _ => True)) with (TI := TF) (t := t) (w := ([], cs) : world CS)
    as (f' & o' & st' & R & Q1 & Q2 & Q3 & Q4);
    [auto|auto|auto|auto|intros t1 F F' H _; exact H|apply TF_sync|intros; contradiction|intros; contradiction|intros; contradiction
    |apply tree_tget|apply tree_tput|exact HG|exact HL|exact HS|apply any1_notest; apply (sh_any _ _ HS)|exact HE|exact Hn|reflexivity|exact Ht|].
  cbn [snd] in R. pose proof (run_det _ _ _ _ _ _ Hx R) as Eq. injection Eq as <- <-. exact Q4.
Qed.
End Text.
Variable C : list byte -> Prop.
Hypothesis HN : forall s, C s -> near p CS check s.
Lemma tree_history : forall e s t, history_of C bufsz check threshold p code e s t -> TE (negb e) s t.
Proof.
  intros e s t H. induction H as [s|e s t f cs r w' o st H IH Hk Hcs Hp Hx|e s t ed H IH He Hg|e s t h H IH].
  - exists it_empty, []. split; [reflexivity|]. split; [split; [constructor|left; constructor]|]. split; [constructor|]. split; [reflexivity|]. intros id pos h en [].
  - eapply tree_step; try eassumption. apply HN. exact Hcs.
  - eapply edit_step; try eassumption. destruct Hg as [->|Hg]; [left; reflexivity|right; exact Hg].
  - apply TE_ask. exact IH.
Qed.
End Rounds.

Lemma good_tree_history : forall bufsz CS check thr threshold p code (C : list byte -> Prop) e s t,
  0 < bufsz -> supported p -> compiled_memo thr p code -> memo_recorded p -> starred p = true -> (forall s, C s -> near p CS check s) ->
  history_of C bufsz check threshold p code e s t -> good CS check thr p code s t.
Proof.
  intros bufsz CS check thr threshold p code C e s t Hb Hs Hc HR HS HN H.
  destruct (compiled_ready _ _ _ Hs Hc) as (M0 & Tl & R). exists M0, Tl. split; [exact R|]. eapply TE_soft.
  eapply tree_history; eassumption.
Qed.
