(** The check of Spec_GrammarMemo is right. *)
From Coq Require Import ZArith String.
From Verif Require Import Base Model_Charset Model_Isa Model_Code Model_VM Model_Pattern Model_Re Spec_Peg Spec_Scope Spec_Run Spec_Re Spec_Memo Spec_Grammars Spec_GrammarMemo Proof_Memo Proof_Grammars.
Local Open Scope nat_scope.

Lemma distinct_ids_NoDup : forall l, distinct_ids l = true -> NoDup l.
Proof.
  induction l as [|x l IH]; cbn; intro H; [constructor|]. both H. constructor; [|auto]. intro I. apply negb_true_iff in H. rewrite <- not_true_iff_false in H. apply H, existsb_exists. exists x. split; [exact I|apply Z.eqb_refl].
Qed.
Lemma one_pattern : forall (l : list (Z * pattern)) id q q', NoDup (map fst l) -> In (id, q) l -> In (id, q') l -> q = q'.
Proof.
  induction l as [|[k v] l IH]; intros id q q' N I I'; [destruct I|]. inversion N as [|? ? Nk Nl]; subst. destruct I as [I|I], I' as [I'|I'].
  - congruence.
  - injection I as -> ->. destruct Nk. apply (in_map fst) in I'. exact I'.
  - injection I' as -> ->. destruct Nk. apply (in_map fst) in I. exact I.
  - eauto.
Qed.
Section Check.
Variable defs : list (string * pattern).
Variable st : string.
Variable Hs : Forall (fun d => simple (snd d) = true) defs.
Notation ms := (flat_map (fun d => memos (snd d)) defs).
Lemma simple_child : forall p E' q, simple p = true -> child [defs] p E' q ->
  E' = [defs] /\ simple q = true /\ (incl (memos p) ms -> incl (memos q) ms) /\
  (incl (free_nts q) (free_nts p) \/ exists x, p = PNonTerm x None /\ In (x, q) defs).
Proof.
  intros p E' q S C. inversion C; subst; cbn [simple] in S; try discriminate; try (both S);
    try (split; [reflexivity|]; split; [assumption|]; split; [cbn [memos]; intros I y Hy; apply I; try (apply in_app_iff; tauto); try (right; assumption); assumption|left; cbn [free_nts]; intros y Hy; try (apply in_app_iff; tauto); exact Hy]).
  match goal with L : lookup _ _ = _ |- _ => cbn [lookup] in L; destruct (assoc defs x) as [b|] eqn:E; [|discriminate]; injection L as -> <- end. apply assoc_in in E. split; [reflexivity|]. split; [pose proof Hs as K; rewrite Forall_forall in K; exact (K _ E)|].
  split; [|right; eauto]. intros _ y Hy. apply in_flat_map. exists (x, q). auto.
Qed.
Lemma memoized_in : forall id E q, memoized (PGrammar defs st) id E q -> E = [defs] /\ In (id, q) ms /\ simple q = true.
Proof.
  intros id E q H. apply (part_in (fun E q => (E = [] /\ q = PGrammar defs st) \/ (E = [defs] /\ simple q = true /\ incl (memos q) ms))) in H; [|clear - Hs|auto].
  - destruct H as [[_ H]|(-> & S & I)]; [discriminate|]. split; [reflexivity|]. split; [apply I; left; reflexivity|exact S].
  - intros E p E' q [[-> ->]|(-> & S & I)] C; right.
    + inversion C; subst. split; [reflexivity|]. match goal with H : In (?k, q) defs |- _ => rename H into Hk; rename k into kk end. pose proof Hs as K. rewrite Forall_forall in K. split; [exact (K _ Hk)|]. intros y Hy. apply in_flat_map. eauto.
    + destruct (simple_child p E' q S C) as (-> & S' & I' & _). auto.
Qed.
Lemma memo_check_ok : forall m, memo_check m (PGrammar defs st) = true ->
  memo_once (PGrammar defs st) /\ memo_recorded (PGrammar defs st) /\ memo_below (PGrammar defs st) m.
Proof.
  intros m H. cbn [memo_check] in H. set (R := reach _ _ _) in H. both H. both H. both H. apply distinct_ids_NoDup in H. rewrite forallb_forall in B, B0, B1. split; [|split].
  - intros id E q E' q' M M'. apply memoized_in in M as (-> & M & _). apply memoized_in in M' as (-> & M' & _). split; [reflexivity|]. eapply one_pattern; eassumption.
  - intros id E q M. apply memoized_in in M as (-> & M & S). specialize (B0 _ M). cbn [snd] in B0. both B0. split; [exact B0|]. intros E' x b E'' P L.
    apply (part_in (fun E p => E = [defs] /\ simple p = true /\ forallb (fun x => str_mem x R) (free_nts p) = true)) in P; [|clear - Hs B|auto].
    + destruct P as (-> & _ & F). cbn [free_nts forallb] in F. both F. cbn [lookup] in L. destruct (assoc defs x) as [b'|] eqn:E; [|discriminate]. injection L as -> _. apply assoc_in in E. specialize (B _ E). cbn [fst snd] in B. rewrite F in B. cbn [negb orb] in B. both B. exact B.
    + intros E p E' q (-> & S & F) C. destruct (simple_child p E' q S C) as (-> & S' & _ & D). split; [reflexivity|]. split; [exact S'|]. rewrite forallb_forall in F. apply forallb_forall. destruct D as [D|(x & -> & D)]; [auto|].
      specialize (B _ D). cbn [fst snd] in B. specialize (F x (or_introl eq_refl)). rewrite F in B. cbn [negb orb] in B. both B. rewrite forallb_forall in B0. exact B0.
  - intros id E q M. apply memoized_in in M as (_ & M & _). apply (in_map fst) in M. specialize (B1 _ M). apply Z.leb_le. exact B1.
Qed.
End Check.
Theorem memo_text_ok : forall s l rest capg, light_check s = true -> memo_text s = true -> read s = Yes (TGrammar l) rest ->
  memo_once (grammar_of capg l) /\ memo_recorded (grammar_of capg l) /\ memo_below (grammar_of capg l) (snd (denote_defs l 0)).
Proof.
  intros s l rest capg L M H. unfold light_check in L. unfold memo_text in M. rewrite H in *. both L. rewrite forallb_forall in B, M. assert (I : In capg [false; true]) by (destruct capg; cbn; auto). specialize (B _ I). specialize (M _ I).
  destruct (grammar_of capg l) as [| | | | | | | | | | | | | |defs st| | | |] eqn:E; try discriminate. apply memo_check_ok; [|exact M]. cbn [flat_check] in B. both B. both B. eapply flat_parts. eassumption.
Qed.
Lemma compiles_memo_ok : forall thr n p m, compiles thr n p m = true -> memo_below p m -> exists pcode, compiled_memo thr p pcode.
Proof.
  intros thr n p m H B. unfold compiles in H. destruct (compile thr n p (CState 0 m)) as [pc st'| | |] eqn:Ec; try discriminate.
  destruct (fit_check_ok _ H) as (pcode & E). exists pcode. exists n, (CState 0 m), pc, st'. split; [exact B|]. split; [exact Ec|exact E].
Qed.
