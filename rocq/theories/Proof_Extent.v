(** How far patterns look: rules to reason about the end of a match and the extent of what was looked at. *)
From Coq Require Import ZArith String.
From Verif Require Import Base Model_Charset Model_Isa Model_Capture Model_Pattern Spec_Peg Spec_Json Spec_Rounds Proof_Eval Proof_Charset Proof_Get.
Local Open Scope nat_scope.
Arguments Nat.max : simpl never.

Section Text.
Variable s : list byte.
Variable CS : Type.
Variable check : nat -> CS -> list byte -> list byte -> nat -> Z -> Z -> CS * option nat.
Variable D : list (string * pattern).
Notation eval := (eval s check).
Notation c := (nth_error s).

Definition ok (P : option nat -> nat -> Prop) (r : pres) (x : nat) : Prop :=
  match r with RSucc j _ => P (Some j) x | RFail => P None x | RAbort _ => False end.
(** with fuel up to [N], matching [p] at [i] ends and looks as [P] says *)
Definition looks (N : nat) (p : pattern) (i : nat) (P : option nat -> nat -> Prop) : Prop :=
  forall n w r w' x, n <= N -> eval n [D] p i w = (Some r, w', x) -> ok P r x.

Lemma l_use : forall N p i (P Q : option nat -> nat -> Prop), looks N p i P -> (forall o x, P o x -> Q o x) -> looks N p i Q.
Proof. intros N p i P Q H HQ n w r w' x L E. specialize (H n w r w' x L E). destruct r; cbn in *; auto. Qed.
Lemma l_fuel : forall N M p i P, looks N p i P -> M <= N -> looks M p i P.
Proof. intros N M p i P H L n w r w' x L' E. eapply H; [|exact E]. lia. Qed.
Lemma l_seq : forall N p q i Q, looks N p i (fun o x => match o with Some j => looks N q j (fun o y => Q o (Nat.max x y)) | None => Q None x end) -> looks N (PSeq p q) i Q.
Proof.
  intros N p q i Q H n w r w' x L E. rewrite eval_seq in E. destruct (eval n [D] p i w) as [[o w1] x1] eqn:E1. destruct o as [r1|]; [|discriminate]. specialize (H _ _ _ _ _ L E1). destruct r1 as [|j ts|j]; cbn in *; [injection E as <- <- <-; exact H| |contradiction].
  destruct (eval n [D] q j w1) as [[o w2] x2] eqn:E2. destruct o as [r2|]; [|discriminate]. specialize (H _ _ _ _ _ L E2). destruct r2; injection E as <- <- <-; exact H.
Qed.
Lemma l_alt : forall N p q i Q, looks N p i (fun o x => match o with Some j => Q (Some j) x | None => looks N q i (fun o y => Q o (Nat.max x y)) end) -> looks N (PAlt p q) i Q.
Proof.
  intros N p q i Q H n w r w' x L E. rewrite eval_alt in E. destruct (eval n [D] p i w) as [[o w1] x1] eqn:E1. destruct o as [r1|]; [|discriminate]. specialize (H _ _ _ _ _ L E1). destruct r1 as [|j ts|j]; cbn in *; [|injection E as <- <- <-; exact H|contradiction].
  destruct (eval n [D] q i w1) as [[o w2] x2] eqn:E2. destruct o as [r2|]; [|discriminate]. specialize (H _ _ _ _ _ L E2). injection E as <- <- <-. exact H.
Qed.
Lemma l_opt : forall N p i Q, looks N p i (fun o x => match o with Some j => Q (Some j) x | None => Q (Some i) x end) -> looks N (POpt p) i Q.
Proof.
  intros N p i Q H n w r w' x L E. rewrite eval_opt in E. revert n w r w' x L E. change (looks N (PAlt p PEmpty) i Q). apply l_alt. eapply l_use; [exact H|]. intros o x Hx. destruct o as [j|]; [exact Hx|].
  intros n w r w' y L E. rewrite eval_empty in E. injection E as <- <- <-. cbn. rewrite Nat.max_0_r. exact Hx.
Qed.
Lemma l_not : forall N p i (Q : option nat -> nat -> Prop), looks N p i (fun o x => match o with Some j => Q None x | None => Q (Some i) x end) -> looks N (PNot p) i Q.
Proof.
  intros N p i Q H n w r w' x L E. rewrite eval_not in E. destruct (eval n [D] p i w) as [[o w1] x1] eqn:E1. destruct o as [r1|]; [|discriminate]. specialize (H _ _ _ _ _ L E1). destruct r1; cbn in *; [| |contradiction]; injection E as <- <- <-; exact H.
Qed.
Lemma l_cap : forall N p id i Q, looks N p i Q -> looks N (PCap p id) i Q.
Proof.
  intros N p id i Q H n w r w' x L E. rewrite eval_cap in E. destruct (eval n [D] p i w) as [[o w1] x1] eqn:E1. destruct o as [r1|]; [|discriminate]. specialize (H _ _ _ _ _ L E1). destruct r1; cbn in *; [| |contradiction]; injection E as <- <- <-; exact H.
Qed.
Lemma l_memo : forall N p id i Q, looks N p i Q -> looks N (PMemo p id) i Q.
Proof. intros N p id i Q H n w r w' x L E. rewrite eval_memo in E. eapply H; eassumption. Qed.
Lemma l_nt : forall N x b i Q, assoc D x = Some b -> looks N b i Q -> looks (S N) (PNonTerm x None) i Q.
Proof.
  intros N x b i Q Hb H n w r w' y L E. rewrite eval_nt in E. destruct n as [|n]; [discriminate|]. cbn [lookup] in E. rewrite Hb in E. eapply H; [|exact E]. lia.
Qed.
Lemma l_zero : forall x i Q, looks 0 (PNonTerm x None) i Q.
Proof. intros x i Q n w r w' y L E. rewrite eval_nt in E. destruct n; [discriminate|lia]. Qed.
Lemma l_rule : forall N x b i Q, assoc D x = Some b -> looks N b i Q -> looks N (PNonTerm x None) i Q.
Proof. intros N x b i Q Hb H. eapply l_fuel; [eapply l_nt; eassumption|lia]. Qed.
Lemma l_dot : forall N i (Q : option nat -> nat -> Prop), (i < List.length s -> Q (Some (S i)) 0) -> (c i = None -> Q None 0) -> looks N (PDot x01) i Q.
Proof.
  intros N i Q H1 H2 n w r w' x L E. rewrite eval_dot in E. replace (i + N.to_nat (bN x01)) with (S i) in E by (change (N.to_nat (bN x01)) with 1; lia). destruct (S i <=? List.length s) eqn:El; injection E as <- <- <-; cbn [ok]; [apply H1; apply Nat.leb_le in El; lia|]. apply Nat.leb_gt in El. apply H2. apply nth_error_None. lia.
Qed.
Lemma l_class : forall N set f i (Q : option nat -> nat -> Prop), (forall b, cs_has set b = f b) ->
  (forall b, c i = Some b -> f b = true -> Q (Some (S i)) (S i)) -> ((forall b, c i = Some b -> f b = false) -> Q None (S i)) -> looks N (PClass set) i Q.
Proof.
  intros N set f i Q Hf H1 H2 n w r w' x L E. rewrite eval_class in E. unfold class_eval in E. destruct (c i) as [b|] eqn:Ec.
  - injection E as <- <- <-. rewrite Hf. destruct (f b) eqn:Eb; cbn; [eapply H1; eauto|]. apply H2. intros b' [= <-]. exact Eb.
  - injection E as <- <- <-. apply H2. discriminate.
Qed.
Lemma l_lit : forall N b t i (Q : option nat -> nat -> Prop), (forall j x, c i = Some b -> i < j -> x <= j -> (t = [] -> j = S i) -> Q (Some j) x) ->
  (forall x, x <= S i \/ (c i = Some b /\ t <> []) -> (t = [] -> c i <> Some b) -> Q None x) -> looks N (PLit (b :: t)) i Q.
Proof.
  intros N b t i Q H1 H2 n w r w' x L E. rewrite eval_lit in E.
  assert (K : forall t i (w : world CS) r w' x, lit_eval s t i w = (Some r, w', x) -> match r with RSucc j _ => i <= j /\ x <= j /\ (t = [] -> j = i) | RFail => t <> [] | RAbort _ => False end).
  { clear. induction t as [|a t IH]; intros i w r w' x E; cbn [lit_eval] in E; [injection E as <- <- <-; repeat split; lia|]. destruct (c i) as [d|]; [|injection E as <- <- <-; discriminate]. destruct (byte_eqb a d); [|injection E as <- <- <-; discriminate].
    cbn [ebind] in E. destruct (lit_eval s t (S i) w) as [[o w2] x2] eqn:E2. destruct o as [r2|]; [|discriminate]. apply IH in E2. destruct r2; injection E as <- <- <-; [discriminate| |exact E2]. destruct E2 as (A & B & _). repeat split; try discriminate; lia. }
  cbn [lit_eval] in E. destruct (c i) as [d|] eqn:Ec; [|injection E as <- <- <-; apply H2; [lia|discriminate]].
  destruct (byte_eqb b d) eqn:Eb; [|injection E as <- <- <-; apply H2; [lia|]; intros _ [= ->]; rewrite byte_eqb_refl in Eb; discriminate]. apply byte_eqb_eq in Eb. subst d.
  cbn [ebind] in E. destruct (lit_eval s t (S i) w) as [[o w2] x2] eqn:E2. destruct o as [r2|]; [|discriminate]. apply K in E2. destruct r2; injection E as <- <- <-; cbn; [| |contradiction].
  - apply H2; [right; auto|]. intro. contradiction.
  - destruct E2 as (A & B & C). apply H1; auto; lia.
Qed.
Lemma l_chr : forall N b i (Q : option nat -> nat -> Prop), (forall x, c i = Some b -> x <= S i -> Q (Some (S i)) x) -> (forall x, c i <> Some b -> x <= S i -> Q None x) -> looks N (PLit [b]) i Q.
Proof.
  intros N b i Q H1 H2. apply l_lit.
  - intros j x Hc Hj Hx Hj'. rewrite (Hj' eq_refl) in *. auto.
  - intros x Hx Hn. destruct Hx as [Hx|[_ Hx]]; [|contradiction]. auto.
Qed.
Lemma l_star : forall (I : nat -> nat -> Prop) N q i (Q : option nat -> nat -> Prop), I i 0 ->
  (forall j y, I j y -> looks N q j (fun o x => match o with Some k => I k (Nat.max y x) | None => Q (Some j) (Nat.max y x) end)) -> looks N (PStar q) i Q.
Proof.
  intros I N q i Q H0 HS. assert (K : forall n, n <= N -> forall i y, I i y -> forall w r w' x, eval n [D] (PStar q) i w = (Some r, w', x) -> ok Q r (Nat.max y x)).
  { induction n as [|n IH]; intros L j y Hj w r w' x E; rewrite eval_star in E; destruct (eval _ [D] q j w) as [[o w1] x1] eqn:E1; (destruct o as [r1|]; [|discriminate]); pose proof (HS j y Hj _ _ _ _ _ L E1) as G; destruct r1 as [|k ts|k]; cbn in G, E; try contradiction.
    - rewrite Nat.max_0_r in E. injection E as <- <- <-. exact G.
    - discriminate.
    - rewrite Nat.max_0_r in E. injection E as <- <- <-. exact G.
    - destruct (eval n [D] (PStar q) k w1) as [[o w2] x2] eqn:E2. destruct o as [r2|]; [|discriminate]. pose proof E2 as E3. apply (IH ltac:(lia) _ _ G) in E2.
      destruct r2; cbn in E2, E.
      + exfalso. eapply star_not_fail. exact E3.
      + injection E as <- <- <-. rewrite Nat.max_assoc. exact E2.
      + contradiction. }
  intros n w r w' x L E. apply (K n L i 0 H0) in E. exact E.
Qed.
End Text.
