(** The parser of package re follows its grammar. *)
From Coq Require Import ZArith String.
From Verif Require Import Base Model_Charset Model_Isa Model_Capture Model_Input Model_Code Model_VM Model_Pattern Model_Re Spec_Peg Spec_Run Spec_Re Proof_Charset.
Local Open Scope nat_scope.

Lemma byte_eqb_sym : forall a b, byte_eqb a b = byte_eqb b a.
Proof. intros a b. destruct (byte_eqb a b) eqn:E, (byte_eqb b a) eqn:F; try reflexivity; [apply byte_eqb_eq in E; apply byte_eqb_neq in F|apply byte_eqb_neq in E; apply byte_eqb_eq in F]; congruence. Qed.
(* ---------- readers never run out of fuel ---------- *)
Definition b2n (b : bool) : nat := if b then 1 else 0.
Definition safe {A} (k : nat) (b : bool) (f : reader A) : Prop := forall t, List.length t <= k ->
  f t <> Out /\ forall a r, f t = Yes a r -> List.length r + b2n b <= List.length t.
Lemma safe_ret : forall A k (a : A), safe k false (ret a).
Proof. intros A k a t L. split; [discriminate|]. intros a' r H. injection H as <- <-. cbn. lia. Qed.
Lemma safe_bind : forall A B k b (f : reader A) (g : A -> reader B), safe k false f -> (forall a, safe k b (g a)) -> safe k b (bind f g).
Proof.
  intros A B k b f g F G t L. destruct (F t L) as [F1 F2]. unfold bind. destruct (f t) as [| |a r]; [contradiction|split; [discriminate|intros; discriminate]|].
  specialize (F2 a r eq_refl). cbn in F2. destruct (G a r ltac:(lia)) as [G1 G2]. split; [exact G1|]. intros c r' H. specialize (G2 c r' H). lia.
Qed.
Lemma safe_bind' : forall A B k b (f : reader A) (g : A -> reader B), safe k true f -> (forall k', k = S k' -> forall a, safe k' b (g a)) -> safe k true (bind f g).
Proof.
  intros A B k b f g F G t L. destruct (F t L) as [F1 F2]. unfold bind. destruct (f t) as [| |a r]; [contradiction|split; [discriminate|intros; discriminate]|].
  specialize (F2 a r eq_refl). cbn in F2. destruct k as [|k]; [lia|]. destruct (G k eq_refl a r ltac:(lia)) as [G1 G2]. split; [exact G1|]. intros c r' H. specialize (G2 c r' H). cbn. lia.
Qed.
Lemma safe_or : forall A k b (f g : reader A), safe k b f -> safe k b g -> safe k b (orelse f g).
Proof.
  intros A k b f g F G t L. destruct (F t L) as [F1 F2]. unfold orelse. destruct (f t) as [| |a r]; [contradiction|apply (G t L)|]. split; [discriminate|]. intros a' r' H. injection H as <- <-. apply (F2 a r eq_refl).
Qed.
Lemma safe_unless : forall A k b (f : reader A), safe k b f -> safe k false (unless f).
Proof. intros A k b f F t L. destruct (F t L) as [F1 F2]. unfold unless. destruct (f t); [contradiction| |]; (split; [discriminate|]); intros a' r' H; [injection H as <- <-; cbn; lia|discriminate]. Qed.
Lemma safe_maybe : forall A k b (f : reader A), safe k b f -> safe k false (maybe f).
Proof.
  intros A k b f F t L. destruct (F t L) as [F1 F2]. unfold maybe. destruct (f t) as [| |a r]; [contradiction| |]; (split; [discriminate|]); intros a' r' H; injection H as <- <-; [cbn; lia|]. specialize (F2 a r eq_refl). cbn. lia.
Qed.
Lemma safe_many : forall A k (f : reader A), safe k true f -> safe k false (many f).
Proof.
  intros A k f F. assert (Q : forall n t, List.length t <= k -> List.length t < n -> many' n f t <> Out /\ forall a r, many' n f t = Yes a r -> List.length r + b2n false <= List.length t).
  { induction n as [|n IH]; intros t L N; [lia|]. cbn [many']. destruct (F t L) as [F1 F2]. destruct (f t) as [| |a r]; [contradiction| |].
    - split; [discriminate|]. intros a' r' H. injection H as <- <-. cbn. lia.
    - specialize (F2 a r eq_refl). cbn in F2. destruct (IH r ltac:(lia) ltac:(lia)) as [G1 G2]. destruct (many' n f r) as [| |l r']; [contradiction|split; [discriminate|intros; discriminate]|].
      split; [discriminate|]. intros a' r2 H. injection H as <- <-. specialize (G2 l r' eq_refl). cbn in *. lia. }
  intros t L. apply Q; [exact L|lia].
Qed.
Lemma safe_sat : forall k P, safe k true (sat P).
Proof. intros k P t L. unfold sat. destruct t as [|b t]; [split; [discriminate|intros; discriminate]|]. destruct (P b); [|split; [discriminate|intros; discriminate]]. split; [discriminate|]. intros a r H. injection H as <- <-. cbn. lia. Qed.
Lemma safe_weak : forall A k b (f : reader A), safe k b f -> safe k false f.
Proof. intros A k b f F t L. destruct (F t L) as [F1 F2]. split; [exact F1|]. intros a r H. specialize (F2 a r H). cbn. lia. Qed.
Lemma safe_le : forall A k k' b (f : reader A), safe k b f -> k' <= k -> safe k' b f.
Proof. intros A k k' b f F L t Lt. apply F. lia. Qed.
Lemma safe_str : forall k l, safe k (match l with [] => false | _ => true end) (str l).
Proof.
  intros k l. revert k. induction l as [|b l IH]; intro k; cbn [str]; [apply safe_ret|]. eapply safe_bind'; [apply safe_sat|]. intros k' _ _. eapply safe_weak. apply IH.
Qed.
Lemma safe_str1 : forall k b l, safe k true (str (b :: l)).
Proof. intros k b l. exact (safe_str k (b :: l)). Qed.
Lemma safe_eol : forall k, safe k true end_of_line.
Proof. intro k. unfold end_of_line. repeat apply safe_or; apply safe_str1. Qed.
Lemma safe_space : forall k, safe k true space.
Proof. intro k. apply safe_or; [|apply safe_eol]. eapply safe_bind'; [apply safe_sat|]. intros. apply safe_ret. Qed.
Lemma safe_comment : forall k, safe k true comment.
Proof.
  intro k. eapply safe_bind'; [apply safe_str1|]. intros k' _ _. eapply safe_bind; [apply safe_many; eapply safe_bind; [eapply safe_unless; apply safe_eol|intros; apply safe_sat]|]. intros. apply safe_eol.
Qed.
Lemma safe_spacing : forall k, safe k false spacing.
Proof. intro k. eapply safe_bind; [apply safe_many; apply safe_or; [apply safe_space|apply safe_comment]|]. intros. apply safe_ret. Qed.
Lemma safe_token : forall k b l, safe k true (token (b :: l)).
Proof. intros k b l. eapply safe_bind'; [apply safe_str1|]. intros. apply safe_spacing. Qed.
Lemma safe_identifier : forall k, safe k true identifier.
Proof.
  intro k. eapply safe_bind'; [apply safe_sat|]. intros k' _ b. eapply safe_bind; [apply safe_many; apply safe_or; apply safe_sat|]. intros l. eapply safe_bind; [apply safe_spacing|]. intros. apply safe_ret.
Qed.
Lemma safe_char : forall k, safe k true char.
Proof.
  intro k. unfold char, octal_digit, any. repeat apply safe_or; try (eapply safe_bind'; [apply safe_sat|]; intros k1 _ b1).
  - eapply safe_weak. eapply safe_bind'; [apply safe_sat|]. intros. apply safe_ret.
  - eapply safe_weak. eapply safe_bind'; [apply safe_sat|]. intros k2 _ b2. eapply safe_weak. eapply safe_bind'; [apply safe_sat|]. intros k3 _ b3. eapply safe_weak. eapply safe_bind'; [apply safe_sat|]. intros. apply safe_ret.
  - eapply safe_weak. eapply safe_bind'; [apply safe_sat|]. intros k2 _ b2. eapply safe_bind; [eapply safe_maybe; apply safe_sat|]. intros. apply safe_ret.
  - eapply safe_bind; [eapply safe_unless; apply safe_sat|]. intros _. eapply safe_bind'; [apply safe_sat|]. intros. apply safe_ret.
Qed.
Lemma safe_quoted : forall k q, safe k true (quoted q).
Proof.
  intros k q. eapply safe_bind'; [apply safe_str1|]. intros k1 _ _. eapply safe_bind; [apply safe_many; eapply safe_bind; [eapply safe_unless; apply safe_str1|intros; apply safe_char]|]. intros l.
  eapply safe_weak. eapply safe_bind'; [apply safe_str1|]. intros. eapply safe_bind; [apply safe_spacing|]. intros. apply safe_ret.
Qed.
Lemma safe_literal : forall k, safe k true literal.
Proof. intro k. apply safe_or; apply safe_quoted. Qed.
Lemma safe_range : forall k, safe k true range.
Proof.
  intro k. apply safe_or; (eapply safe_bind'; [apply safe_char|]; intros k1 _ a); [|apply safe_ret].
  eapply safe_weak. eapply safe_bind'; [apply safe_str1|]. intros k2 _ _. eapply safe_weak. eapply safe_bind'; [apply safe_char|]. intros. apply safe_ret.
Qed.
Lemma safe_class : forall k, safe k true class.
Proof.
  intro k. eapply safe_bind'; [apply safe_str1|]. intros k1 _ _. eapply safe_bind; [eapply safe_maybe; apply safe_token|]. intros neg.
  eapply safe_bind; [apply safe_many; eapply safe_bind; [eapply safe_unless; apply safe_str1|intros; apply safe_range]|]. intros l.
  eapply safe_weak. eapply safe_bind'; [apply safe_str1|]. intros. eapply safe_bind; [apply safe_spacing|]. intros. apply safe_ret.
Qed.
Section SafeExpr.
Variable ex : reader rexp.
Variable k : nat.
Hypothesis Hex : forall k', k = S k' -> safe k' false ex.
Lemma safe_nested : forall b l b' l' (f : rexp -> rexp), safe k true (token (b :: l) ;; e <- ex ;; token (b' :: l') ;; ret (f e)).
Proof.
  intros b l b' l' f. eapply safe_bind'; [apply safe_token|]. intros k' Ek _. eapply safe_bind; [apply Hex; exact Ek|]. intros e. eapply safe_weak. eapply safe_bind'; [apply safe_token|]. intros. apply safe_ret.
Qed.
Lemma safe_primary : safe k true (primary ex).
Proof.
  unfold primary. repeat apply safe_or.
  - eapply safe_bind'; [apply safe_identifier|]. intros k' _ x. eapply safe_bind; [eapply safe_unless; apply safe_token|]. intros. apply safe_ret.
  - apply (safe_nested _ _ _ _ (fun e => e)).
  - apply safe_nested.
  - apply safe_nested.
  - eapply safe_bind'; [apply safe_literal|]. intros. apply safe_ret.
  - apply safe_class.
  - eapply safe_bind'; [apply safe_token|]. intros. apply safe_ret.
Qed.
Lemma safe_op : forall A b l (x : A), safe k true (token (b :: l) ;; ret x).
Proof. intros. eapply safe_bind'; [apply safe_token|]. intros. apply safe_ret. Qed.
End SafeExpr.
Lemma safe_suffix : forall ex k, (forall k', k = S k' -> safe k' false ex) -> safe k true (suffix ex).
Proof.
  intros ex k H. eapply safe_bind'; [apply safe_primary; exact H|]. intros k' _ e. eapply safe_bind; [eapply safe_maybe; repeat apply safe_or; apply safe_op|]. intros. apply safe_ret.
Qed.
Lemma safe_prefix : forall ex k, (forall k', k = S k' -> safe k' false ex) -> safe k true (prefix ex).
Proof.
  intros ex k H. eapply safe_bind; [eapply safe_maybe; repeat apply safe_or; apply safe_op|]. intros o. eapply safe_bind'; [apply safe_suffix; exact H|]. intros. apply safe_ret.
Qed.
Lemma safe_sequence : forall ex k, (forall k', k = S k' -> safe k' false ex) -> safe k false (sequence ex).
Proof. intros ex k H. eapply safe_bind; [apply safe_many; apply safe_prefix; exact H|]. intros. apply safe_ret. Qed.
Lemma safe_expression : forall ex k, (forall k', k = S k' -> safe k' false ex) -> safe k false (expression ex).
Proof.
  intros ex k H. eapply safe_bind; [apply safe_sequence; exact H|]. intros e. eapply safe_bind; [|intros; apply safe_ret]. apply safe_many. eapply safe_bind'; [apply safe_token|]. intros k' Ek _.
  apply safe_sequence. intros k2 E2. eapply safe_le; [apply H; exact Ek|lia].
Qed.
Lemma safe_expr : forall n, safe n false (expr (S n)).
Proof. induction n as [|n IH]; cbn [expr]; apply safe_expression; intros k' E; [discriminate|injection E as <-; exact IH]. Qed.
Lemma safe_definition : forall n, safe n true (definition (S n)).
Proof.
  intro n. eapply safe_bind'; [apply safe_identifier|]. intros k1 -> x. eapply safe_weak. eapply safe_bind'; [apply safe_token|]. intros k2 -> _. eapply safe_bind; [eapply safe_le; [apply safe_expr|lia]|]. intros. apply safe_ret.
Qed.
Lemma safe_top : forall n, safe n false (top (S n)).
Proof.
  intro n. eapply safe_bind; [apply safe_spacing|]. intros _. eapply safe_bind.
  - apply safe_or.
    + eapply safe_bind; [|intros; apply safe_ret]. eapply safe_weak. eapply safe_bind'; [apply safe_definition|]. intros k' E d. eapply safe_bind; [|intros; apply safe_ret]. apply safe_many. eapply safe_le; [apply safe_definition|lia].
    + eapply safe_bind; [apply safe_expr|]. intros. apply safe_ret.
  - intros p. eapply safe_bind; [eapply safe_unless; apply safe_sat|]. intros. apply safe_ret.
Qed.
Lemma read_total : forall t, read t <> Out.
Proof. intro t. apply (safe_top (List.length t) t). lia. Qed.

(* ---------- the parser of the code ---------- *)
Section Peg.
Variable s : list byte.
Variable CS : Type.
Variable check : nat -> CS -> list byte -> list byte -> nat -> Z -> Z -> CS * option nat.
Notation peg := (peg s check [re_defs]).
Definition agree {A} (X : pattern) (f : reader A) (R : A -> list byte -> list ctree -> Prop) : Prop :=
  forall i w, i <= List.length s ->
  match f (skipn i s) with
  | Out => True
  | No => peg X i w RFail w
  | Yes a rest => exists u ts, skipn i s = u ++ rest /\ peg X i w (RSucc (i + List.length u) ts) w /\ R a u ts
  end.
Lemma rest_skip : forall i u rest, skipn i s = u ++ rest -> i <= List.length s -> rest = skipn (i + List.length u) s /\ i + List.length u <= List.length s.
Proof.
  intros i u rest H L. split.
  - rewrite <- skipn_skipn', H, skipn_app, skipn_all, Nat.sub_diag. reflexivity.
  - assert (List.length (skipn i s) = List.length u + List.length rest) by (rewrite H, app_length; reflexivity). rewrite skipn_length in H0. lia.
Qed.
Lemma no_succ : forall j ts, RFail <> RSucc j ts.
Proof. discriminate. Qed.
Lemma agree_weak : forall A X (f : reader A) R (R' : A -> list byte -> list ctree -> Prop), agree X f R -> (forall a u ts, R a u ts -> R' a u ts) -> agree X f R'.
Proof. intros A X f R R' H W i w L. specialize (H i w L). destruct (f (skipn i s)) as [| |a rest]; [exact H|exact H|]. destruct H as (u & ts & H1 & H2 & H3). exists u, ts. auto. Qed.
Lemma agree_bind : forall A B X Y (f : reader A) (g : A -> reader B) R1 (R : B -> list byte -> list ctree -> Prop), agree X f R1 ->
  (forall a u ts, R1 a u ts -> agree Y (g a) (fun b u' ts' => R b (u ++ u') (ts ++ ts'))) -> agree (PSeq X Y) (bind f g) R.
Proof.
  intros A B X Y f g R1 R F G i w L. unfold bind. specialize (F i w L). destruct (f (skipn i s)) as [| |a rest]; [exact Logic.I|eapply peg_seq_no1; [exact F|exact no_succ]|].
  destruct F as (u & ts & H1 & H2 & H3). destruct (rest_skip i u rest H1 L) as [-> L']. specialize (G a u ts H3 _ w L'). destruct (g a _) as [| |b rest']; [exact Logic.I|eapply peg_seq_no2; [exact H2|exact G|exact no_succ]|].
  destruct G as (u' & ts' & G1 & G2 & G3). exists (u ++ u'), (ts ++ ts'). split; [rewrite H1, G1, app_assoc; reflexivity|]. split; [|exact G3]. rewrite app_length, Nat.add_assoc. eapply peg_seq_ok; eassumption.
Qed.
Lemma agree_map : forall A B X (f : reader A) (h : A -> B) (R : B -> list byte -> list ctree -> Prop), agree X f (fun a u ts => R (h a) u ts) -> agree X (bind f (fun a => ret (h a))) R.
Proof. intros A B X f h R F i w L. unfold bind, ret. specialize (F i w L). destruct (f (skipn i s)); exact F. Qed.
Lemma agree_assoc : forall A a b c (f : reader A) R, agree (PSeq a (PSeq b c)) f R -> agree (PSeq (PSeq a b) c) f R.
Proof.
  intros A a b c f R H i w L. specialize (H i w L). assert (Q : forall r w', peg (PSeq a (PSeq b c)) i w r w' -> peg (PSeq (PSeq a b) c) i w r w').
  { intros r w' P. inversion P; subst.
    - match goal with H : peg (PSeq b c) _ _ _ _ |- _ => inversion H; subst end; try (exfalso; match goal with H : forall j ts, RSucc _ _ <> _ |- _ => eapply H; reflexivity end). rewrite app_assoc. eapply peg_seq_ok; [eapply peg_seq_ok; eassumption|eassumption].
    - apply peg_seq_no1; [apply peg_seq_no1|]; assumption.
    - match goal with H : peg (PSeq b c) _ _ _ _ |- _ => inversion H; subst end.
      + exfalso. match goal with H : forall j ts, RSucc _ _ <> _ |- _ => eapply H; reflexivity end.
      + apply peg_seq_no1; [eapply peg_seq_no2; eassumption|assumption].
      + eapply peg_seq_no2; [eapply peg_seq_ok; eassumption|eassumption|assumption]. }
  destruct (f (skipn i s)) as [| |x rest]; [exact Logic.I|apply Q; exact H|]. destruct H as (u & ts & H1 & H2 & H3). exists u, ts. auto.
Qed.
Lemma agree_or : forall A X Y (f g : reader A) R, agree X f R -> agree Y g R -> agree (PAlt X Y) (orelse f g) R.
Proof.
  intros A X Y f g R F G i w L. unfold orelse. specialize (F i w L). destruct (f (skipn i s)) as [| |a rest]; [exact Logic.I| |].
  - specialize (G i w L). destruct (g (skipn i s)) as [| |a rest]; [exact Logic.I|eapply peg_alt_2; eassumption|]. destruct G as (u & ts & H1 & H2 & H3). exists u, ts. split; [exact H1|]. split; [|exact H3]. eapply peg_alt_2; eassumption.
  - destruct F as (u & ts & H1 & H2 & H3). exists u, ts. split; [exact H1|]. split; [|exact H3]. apply peg_alt_1; [exact H2|discriminate].
Qed.
Lemma agree_unless : forall A X (f : reader A) R, agree X f R -> agree (PNot X) (unless f) (fun _ u ts => u = [] /\ ts = []).
Proof.
  intros A X f R F i w L. unfold unless. specialize (F i w L). destruct (f (skipn i s)) as [| |a rest]; [exact Logic.I| |].
  - exists [], []. split; [reflexivity|]. split; [|auto]. cbn. rewrite Nat.add_0_r. apply peg_not_ok. exact F.
  - destruct F as (u & ts & H1 & H2 & H3). eapply peg_not_fail. exact H2.
Qed.
Lemma agree_maybe : forall A X (f : reader A) R, agree X f R -> agree (POpt X) (maybe f) (fun o u ts => match o with Some a => R a u ts | None => u = [] /\ ts = [] end).
Proof.
  intros A X f R F i w L. unfold maybe. specialize (F i w L). destruct (f (skipn i s)) as [| |a rest]; [exact Logic.I| |].
  - exists [], []. split; [reflexivity|]. split; [|auto]. cbn. rewrite Nat.add_0_r. apply peg_opt. eapply peg_alt_2; [exact F|apply peg_empty].
  - destruct F as (u & ts & H1 & H2 & H3). exists u, ts. split; [exact H1|]. split; [|exact H3]. apply peg_opt. apply peg_alt_1; [exact H2|discriminate].
Qed.
(** the parts of a repetition *)
Inductive parts {A} (R : A -> list byte -> list ctree -> Prop) : list A -> list byte -> list ctree -> Prop :=
| parts_nil : parts R [] [] []
| parts_cons : forall a l u us ts tss, R a u ts -> parts R l us tss -> parts R (a :: l) (u ++ us) (ts ++ tss).
Lemma agree_many : forall A X (f : reader A) R, agree X f R -> agree (PStar X) (many f) (parts R).
Proof.
  intros A X f R F i w L. unfold many. assert (Q : forall n i, i <= List.length s -> match many' n f (skipn i s) with Out => True | No => peg (PStar X) i w RFail w
    | Yes a rest => exists u ts, skipn i s = u ++ rest /\ peg (PStar X) i w (RSucc (i + List.length u) ts) w /\ parts R a u ts end).
  { clear i L. induction n as [|n IH]; intros i L; [exact Logic.I|]. cbn [many']. specialize (F i w L). destruct (f (skipn i s)) as [| |a rest]; [exact Logic.I| |].
    - exists [], []. split; [reflexivity|]. split; [|constructor]. cbn. rewrite Nat.add_0_r. apply peg_star_end. exact F.
    - destruct F as (u & ts & H1 & H2 & H3). destruct (rest_skip i u rest H1 L) as [-> L']. specialize (IH _ L'). destruct (many' n f _) as [| |l rest'] eqn:Em; [exact Logic.I| |].
      + exfalso. assert (NN : forall n t, many' n f t <> No) by (clear; induction n as [|n IH]; intro t; [discriminate|]; cbn; destruct (f t); try discriminate; destruct (many' n f rest) eqn:E; try discriminate; destruct (IH _ E)). exact (NN _ _ Em).
      + destruct IH as (us & tss & G1 & G2 & G3). exists (u ++ us), (ts ++ tss). split; [rewrite H1, G1, app_assoc; reflexivity|]. split; [|constructor; assumption]. rewrite app_length, Nat.add_assoc. eapply peg_star_more; eassumption. }
  apply Q. exact L.
Qed.
Lemma agree_sat : forall P c, (forall b, cs_has c b = P b) -> agree (PClass c) (sat P) (fun b u ts => u = [b] /\ P b = true /\ ts = []).
Proof.
  intros P c H i w L. assert (E : nth_error s i = hd_error (skipn i s)) by (rewrite skipn_nth_error; destruct (nth_error s i); reflexivity). unfold sat. destruct (skipn i s) as [|b t] eqn:Es; cbn in E.
  - apply peg_class_end. exact E.
  - destruct (P b) eqn:Eb.
    + exists [b], []. split; [reflexivity|]. split; [|auto]. cbn. rewrite Nat.add_1_r. eapply peg_class_ok; [exact E|]. rewrite H. exact Eb.
    + eapply peg_class_fail; [exact E|]. rewrite H. exact Eb.
Qed.
Lemma agree_any : agree (PDot x01) any (fun b u ts => u = [b] /\ ts = []).
Proof.
  intros i w L. unfold any, sat. destruct (skipn i s) as [|b t] eqn:Es.
  - apply peg_dot_fail. assert (List.length (skipn i s) = 0) by (rewrite Es; reflexivity). rewrite skipn_length in H. cbn. lia.
  - exists [b], []. split; [reflexivity|]. split; [|auto]. apply (peg_dot_ok s CS check [re_defs] x01 i w). assert (List.length (skipn i s) = S (List.length t)) by (rewrite Es; reflexivity). rewrite skipn_length in H. cbn. lia.
Qed.
Lemma str_spec : forall l t, match str l t with Out => False | No => firstn (List.length l) t <> l | Yes _ r => t = l ++ r end.
Proof.
  induction l as [|b l IH]; intro t; [reflexivity|]. cbn [str]. unfold bind, sat. destruct t as [|c t]; [discriminate|]. unfold is. destruct (byte_eqb b c) eqn:E.
  - apply byte_eqb_eq in E. subst c. specialize (IH t). destruct (str l t) as [| |x r]; [exact IH|cbn; congruence|cbn; congruence].
  - apply byte_eqb_neq in E. cbn. congruence.
Qed.
Lemma agree_str : forall l, agree (PLit l) (str l) (fun _ u ts => u = l /\ ts = []).
Proof.
  intros l i w L. pose proof (str_spec l (skipn i s)) as H. destruct (str l (skipn i s)) as [| |x r]; [exact Logic.I|apply peg_lit_fail; exact H|].
  exists l, []. split; [exact H|]. split; [|auto]. apply peg_lit_ok. rewrite H, firstn_app, Nat.sub_diag, firstn_all. cbn. apply app_nil_r.
Qed.
Lemma agree_is : forall b, agree (PLit [b]) (sat (is b)) (fun _ u ts => u = [b] /\ ts = []).
Proof.
  intros b i w L. pose proof (agree_str [b] i w L) as H. assert (E : str [b] (skipn i s) = match sat (is b) (skipn i s) with Yes _ r => Yes tt r | No => No | Out => Out end) by reflexivity.
  rewrite E in H. destruct (sat (is b) (skipn i s)); exact H.
Qed.
Lemma agree_nt : forall A x X (f : reader A) R, assoc re_defs x = Some X -> agree X f R -> agree (PNonTerm x None) f R.
Proof.
  intros A x X f R E F i w L. specialize (F i w L). assert (G : lookup [re_defs] x = Some (X, [re_defs])) by (cbn [lookup]; rewrite E; reflexivity).
  destruct (f (skipn i s)) as [| |a rest]; [exact Logic.I|eapply peg_nonterm; eassumption|]. destruct F as (u & ts & H1 & H2 & H3). exists u, ts. split; [exact H1|]. split; [|exact H3]. eapply peg_nonterm; eassumption.
Qed.
Lemma agree_cap : forall A X id (f : reader A) R (R' : A -> list byte -> list ctree -> Prop), agree X f R ->
  (forall a u ts t, R a u ts -> ct_id t = id -> kids t = ts -> text_of s t = u -> R' a u [t]) -> agree (PCap X id) f R'.
Proof.
  intros A X id f R R' F W i w L. specialize (F i w L). destruct (f (skipn i s)) as [| |a rest]; [exact Logic.I|apply peg_cap_no; [exact F|exact no_succ]|].
  destruct F as (u & ts & H1 & H2 & H3). exists u, [CNode id i (List.length u) ts]. split; [exact H1|]. split.
  - replace (List.length u) with (i + List.length u - i) at 2 by lia. apply peg_cap_ok. exact H2.
  - apply (W a u ts); [exact H3|reflexivity|reflexivity|]. cbn [text_of]. rewrite H1, firstn_app, Nat.sub_diag, firstn_all. cbn. apply app_nil_r.
Qed.

(* ---------- spacing and tokens ---------- *)
Definition quiet {A} (_ : A) (_ : list byte) (ts : list ctree) : Prop := ts = [].
Ltac nt := eapply agree_nt; [reflexivity|].
Lemma g_eol : agree (nt "EndOfLine") end_of_line quiet.
Proof. nt. repeat apply agree_or; (eapply agree_weak; [apply agree_str|intros a u ts [_ H]; exact H]). Qed.
Lemma g_space : agree (nt "Space") space quiet.
Proof.
  nt. apply agree_or; [|apply g_eol]. eapply agree_map. eapply agree_weak; [apply (agree_sat (fun b => is x20 b || is x09 b))|].
  - intro b. rewrite cs_new_has. cbn [existsb]. unfold is. rewrite orb_false_r, (byte_eqb_sym x20), (byte_eqb_sym x09). reflexivity.
  - intros b u ts (_ & _ & H). exact H.
Qed.
Lemma parts_quiet : forall A (R : A -> list byte -> list ctree -> Prop), (forall a u ts, R a u ts -> ts = []) -> forall l u ts, parts R l u ts -> ts = [].
Proof. intros A R H l u ts P. induction P as [|a l u us ts tss Ha P IH]; [reflexivity|]. rewrite (H _ _ _ Ha), IH. reflexivity. Qed.
Lemma g_comment : agree (nt "Comment") comment quiet.
Proof.
  nt. apply agree_assoc. eapply agree_bind; [apply agree_str|]. intros x1 u1 ts1 [_ ->]. eapply agree_bind.
  - apply agree_many. eapply agree_bind; [eapply agree_unless; apply g_eol|]. intros x2 u2 ts2 [_ ->]. eapply agree_weak; [apply agree_any|]. intros b u ts [_ ->].
    instantiate (1 := quiet). reflexivity.
  - intros l u ts P. rewrite (parts_quiet _ quiet (fun _ _ _ H => H) l u ts P). apply g_eol.
Qed.
Lemma g_spacing : agree (nt "Spacing") spacing quiet.
Proof.
  nt. apply agree_map. eapply agree_weak; [apply agree_many; apply agree_or; [apply g_space|apply g_comment]|]. intros l u ts P. exact (parts_quiet _ _ (fun _ _ _ H => H) l u ts P).
Qed.
Lemma g_tok : forall l, agree (PSeq (PLit l) (nt "Spacing")) (token l) quiet.
Proof. intro l. eapply agree_bind; [apply agree_str|]. intros x u ts [_ ->]. apply g_spacing. Qed.
(** a token with a capture *)
Definition tok {A} (id : Z) (_ : A) (_ : list byte) (ts : list ctree) : Prop := exists t, ts = [t] /\ ct_id t = id.
Lemma g_ctok : forall l id, agree (PCap (PSeq (PLit l) (nt "Spacing")) id) (token l) (tok id).
Proof. intros l id. eapply agree_cap; [apply g_tok|]. intros a u ts t _ H _ _. exists t. auto. Qed.

(* ---------- identifiers ---------- *)
Lemma letter_has : forall b, cs_has g_alpha b = letter b.
Proof. intro b. unfold g_alpha, letter, within, is. rewrite !cs_add_has, !cs_range_has, cs_new_has. cbn [existsb]. rewrite orb_false_r, (byte_eqb_sym x5f). reflexivity. Qed.
Definition ident_tree (x : list byte) (_ : list byte) (ts : list ctree) : Prop := exists t, ts = [t] /\ ct_id t = idIdentifier /\ parse_id s t = name x.
Definition byte_tree (b : byte) (_ : list byte) (ts : list ctree) : Prop := exists t, ts = [t] /\ text_of s t = [b].
Lemma g_identifier : agree (nt "Identifier") identifier ident_tree.
Proof.
  assert (S1 : agree (nt "IdentStart") (sat letter) (fun b u ts => u = [b] /\ byte_tree b u ts)).
  { nt. eapply agree_cap; [apply (agree_sat letter); exact letter_has|]. intros b u ts t (-> & _ & _) _ _ Ht. split; [reflexivity|]. exists t. auto. }
  assert (S2 : agree (nt "IdentCont") (sat letter // sat digit) byte_tree).
  { nt. eapply agree_cap.
    - apply agree_or; [eapply agree_weak; [exact S1|intros b u ts [H _]; instantiate (1 := fun b u _ => u = [b]); exact H]|].
      eapply agree_weak; [apply (agree_sat digit); intro b; unfold digit, within; rewrite cs_range_has; reflexivity|]. intros b u ts (H & _). exact H.
    - intros b u ts t -> _ _ Ht. exists t. auto. }
  nt. eapply agree_cap.
  - apply agree_assoc. eapply agree_bind; [exact S1|]. intros b u1 ts1 [_ (t1 & -> & H1)]. eapply agree_bind; [apply agree_many; exact S2|]. intros l u2 ts2 P. apply agree_map. eapply agree_weak; [apply g_spacing|].
    intros x u3 ts3 ->. instantiate (1 := fun x _ ts => flat_map (text_of s) ts = x). cbv beta. cbn [app flat_map]. rewrite H1, app_nil_r. cbn [app]. f_equal.
    clear - P. induction P as [|a l u us ts tss (t & -> & Ht) P IH]; [reflexivity|]. cbn [app flat_map]. rewrite Ht, IH. reflexivity.
  - intros x u ts t H Hi Hk _. exists t. split; [reflexivity|]. split; [exact Hi|]. unfold parse_id, name. rewrite Hk, H. reflexivity.
Qed.

(* ---------- characters ---------- *)
Definition char_tree (c : rchar) (_ : list byte) (ts : list ctree) : Prop := exists t, ts = [t] /\ (char_ok c -> parse_char (text_of s t) = Some (char_value c)).
Definition octal_value (ds : list byte) : N := fold_left (fun v d => 8 * v + (bN d - 48))%N ds 0%N.
Lemma digit_has : forall hi hb, bN hb = hi -> forall b, cs_has (cs_range x30 hb) b = within 48 hi b.
Proof. intros hi hb H b. rewrite cs_range_has, H. reflexivity. Qed.
Lemma within_is : forall lo hi b, within lo hi b = true -> (lo <= bN b <= hi)%N.
Proof. intros lo hi b H. unfold within in H. apply andb_true_iff in H. rewrite !N.leb_le in H. exact H. Qed.
Lemma octal_fold : forall ds v, Forall (fun d => 48 <= bN d <= 55)%N ds -> octal v ds = Some (fold_left (fun v d => 8 * v + (bN d - 48))%N ds v).
Proof.
  induction ds as [|d ds IH]; intros v H; [reflexivity|]. inversion H as [|? ? Hd Hds]; subst. cbn [octal fold_left]. rewrite (proj2 (N.leb_le 48 (bN d))), (proj2 (N.ltb_lt (bN d) 56)) by lia. apply IH. exact Hds.
Qed.
Lemma no_special : forall d, (48 <= bN d <= 55)%N -> special d = None.
Proof. intros d H. destruct d; try reflexivity; cbn in H; lia. Qed.
Lemma parse_octal : forall d ds, Forall (fun d => 48 <= bN d <= 55)%N (d :: ds) -> char_ok (COct (d :: ds)) -> parse_char (x5c :: d :: ds) = Some (char_value (COct (d :: ds))).
Proof.
  intros d ds H Hok. cbn [parse_char]. inversion H; subst. rewrite no_special by assumption. unfold parse_int8. rewrite octal_fold by exact H. cbn [char_ok] in Hok. rewrite N.min_l by lia. reflexivity.
Qed.
Lemma g_char : agree (nt "Char") char char_tree.
Proof.
  nt. assert (Cap : agree (p_or [p_concat [PLit [x5c]; PClass (cs_new g_escapes)]; p_concat [PLit [x5c]; g_digit x32; g_digit x37; g_digit x37];
     p_concat [PLit [x5c]; g_digit x37; POpt (g_digit x37)]; p_concat [PNot (PLit [x5c]); PDot x01]]) char (fun c u _ => char_ok c -> parse_char u = Some (char_value c))).
  { unfold p_or. cbn [rev app fold_left p_concat]. apply agree_or; [|apply agree_or; [|apply agree_or]].
    - eapply agree_bind; [apply agree_is|]. intros x u ts [-> _]. apply agree_map. eapply agree_weak; [apply (agree_sat escaped)|].
      + intro b. rewrite cs_new_has. unfold escaped, g_escapes. reflexivity.
      + intros b u' ts' (-> & Hb & _) _. cbv beta. cbn [app]. unfold escaped in Hb. destruct b; try discriminate Hb; reflexivity.
    - unfold g_digit. apply agree_assoc. apply agree_assoc. eapply agree_bind; [apply agree_is|]. intros x u ts [-> _].
      eapply agree_bind; [apply (agree_sat (within 48 50)); apply digit_has; reflexivity|]. intros a u1 ts1 (-> & Ha & _).
      eapply agree_bind; [apply (agree_sat (within 48 55)); apply digit_has; reflexivity|]. intros b u2 ts2 (-> & Hb & _).
      apply agree_map. eapply agree_weak; [apply (agree_sat (within 48 55)); apply digit_has; reflexivity|]. intros c u3 ts3 (-> & Hc & _) Hok. cbn [app]. apply parse_octal; [|exact Hok].
      apply within_is in Ha. apply within_is in Hb. apply within_is in Hc. repeat (apply Forall_cons; [lia|]). apply Forall_nil.
    - unfold g_digit. apply agree_assoc. eapply agree_bind; [apply agree_is|]. intros x u ts [-> _].
      eapply agree_bind; [apply (agree_sat (within 48 55)); apply digit_has; reflexivity|]. intros a u1 ts1 (-> & Ha & _).
      apply agree_map. eapply agree_weak; [eapply agree_maybe; apply (agree_sat (within 48 55)); apply digit_has; reflexivity|]. intros o u3 ts3 Ho Hok. apply within_is in Ha.
      destruct o as [b|]; [destruct Ho as (-> & Hb & _); apply within_is in Hb|destruct Ho as (-> & _)]; cbn [app]; (apply parse_octal; [|exact Hok]); repeat (apply Forall_cons; [lia|]); apply Forall_nil.
    - intros i w L. pose proof (agree_unless _ _ _ _ (agree_is x5c) i w L) as N. unfold bind. destruct (unless (sat (is x5c)) (skipn i s)) as [| |x rest] eqn:Eu; [exact Logic.I|apply peg_seq_no1; [exact N|exact no_succ]|].
      destruct N as (u & ts & N1 & N2 & -> & ->). cbn in N1, N2. subst rest. rewrite Nat.add_0_r in N2. pose proof (agree_any i w L) as A. unfold unless in Eu. unfold ret. destruct (any (skipn i s)) as [| |b rest'] eqn:Ea; [exact Logic.I|eapply peg_seq_no2; [exact N2|exact A|exact no_succ]|].
      destruct A as (u & ts & A1 & A2 & -> & ->). exists [b], []. split; [exact A1|]. split; [eapply (peg_seq_ok _ _ _ _ _ _ _ _ []); [exact N2|exact A2]|]. intros _. rewrite A1 in Eu. unfold sat, is in Eu. cbn [app] in Eu.
      destruct (byte_eqb x5c b) eqn:E; [discriminate|]. apply byte_eqb_neq in E. destruct b; try reflexivity. destruct E. reflexivity. }
  eapply agree_cap; [exact Cap|]. intros c u ts t H _ _ Ht. exists t. split; [reflexivity|]. rewrite Ht. exact H.
Qed.
Lemma conv_chars_ok : forall l u ts, parts char_tree l u ts -> Forall char_ok l -> conv_chars s ts = Some (map char_value l).
Proof.
  intros l u ts P. induction P as [|a l u us ts tss (t & -> & Ht) P IH]; intro F; [reflexivity|]. inversion F; subst. cbn [app conv_chars map]. rewrite Ht, IH by assumption. reflexivity.
Qed.

(* ---------- expressions ---------- *)
Variable capg : bool.
Definition exp_tree (id : Z) (e : rexp) (_ : list byte) (ts : list ctree) : Prop :=
  exists t, ts = [t] /\ ct_id t = id /\ (plain e -> forall m, conv s capg t m = Some (denote e m)).
Lemma g_quoted_ok : forall q, agree (g_quoted q) (quoted q) (fun l _ ts => exists u, parts char_tree l u ts).
Proof.
  intro q. unfold g_quoted. cbn [p_concat fold_left]. apply agree_assoc. apply agree_assoc. eapply agree_bind; [apply agree_str|]. intros x u ts [-> ->].
  eapply agree_bind; [apply agree_many; eapply agree_bind; [eapply agree_unless; apply agree_str|]; intros y u1 ts1 [-> ->]; cbn [app]; apply g_char|]. intros l u1 ts1 P.
  eapply agree_bind; [apply agree_str|]. intros y u2 ts2 [-> ->]. apply agree_map. eapply agree_weak; [apply g_spacing|]. intros z u3 ts3 ->. cbn [app]. rewrite app_nil_r. exists u1.
  exact P.
Qed.
(** the loops of the conversion, by themselves *)
Fixpoint conv_all (cs : list ctree) (m : Z) : option (list pattern * Z) :=
  match cs with
  | [] => Some ([], m)
  | c :: cs => match conv s capg c m with Some (p, m) => match conv_all cs m with Some (ps, m) => Some (p :: ps, m) | None => None end | None => None end
  end.
Fixpoint conv_defs (cs : list ctree) (acc : list (string * pattern)) (m : Z) : option (list (string * pattern) * Z) :=
  match cs with
  | [] => Some (acc, m)
  | CNode _ _ _ (i :: e :: _) :: cs => match conv s capg e m with Some (p, m) => conv_defs cs (put_def (parse_id s i) p acc) m | None => None end
  | _ :: _ => None
  end.
Lemma conv_expression : forall st len cs m, conv s capg (CNode idExpression st len cs) m = match conv_all cs m with Some (ps, m) => Some (p_or ps, m) | None => None end.
Proof. reflexivity. Qed.
Lemma conv_sequence : forall st len cs m, conv s capg (CNode idSequence st len cs) m = match conv_all cs m with Some (ps, m) => Some (p_concat ps, m) | None => None end.
Proof. reflexivity. Qed.
Lemma conv_grammar : forall st len cs m, conv s capg (CNode idGrammar st len cs) m =
  match conv_defs cs [] m with
  | Some (d, m) => let first := match cs with CNode _ _ _ (i :: _) :: _ => parse_id s i | _ => ""%string end in Some (if capg then fst (p_cap_grammar first d) else PGrammar d first, m)
  | None => None
  end.
Proof. reflexivity. Qed.
Fixpoint denote_all (l : list rexp) (m : Z) : list pattern * Z :=
  match l with [] => ([], m) | e :: l => let (p, m) := denote e m in let (ps, m) := denote_all l m in (p :: ps, m) end.
Lemma denote_or : forall l m, denote (ROr l) m = let (ps, m) := denote_all l m in (p_or ps, m).
Proof. reflexivity. Qed.
Lemma denote_cat : forall l m, denote (RCat l) m = let (ps, m) := denote_all l m in (p_concat ps, m).
Proof. reflexivity. Qed.
Fixpoint plain_all (l : list rexp) : Prop := match l with [] => True | e :: l => plain e /\ plain_all l end.
Lemma conv_all_ok : forall id l u ts, parts (exp_tree id) l u ts -> plain_all l -> forall m, conv_all ts m = Some (denote_all l m).
Proof.
  intros id l u ts P. induction P as [|e l u us ts tss (t & -> & _ & Ht) P IH]; intros F m; [reflexivity|]. destruct F as [F1 F2]. cbn [app conv_all denote_all]. rewrite (Ht F1 m). destruct (denote e m) as [p m1]. rewrite (IH F2 m1). destruct (denote_all l m1). reflexivity.
Qed.
Definition body (id : Z) (e : rexp) (_ : list byte) (ts : list ctree) : Prop := plain e -> forall st len m, conv s capg (CNode id st len ts) m = Some (denote e m).
Lemma g_node : forall id X f, agree X f (body id) -> agree (PCap X id) f (exp_tree id).
Proof.
  intros id X f H. eapply agree_cap; [exact H|]. intros e u ts [id' st len ts'] Hb Hi Hk _. cbn in Hi, Hk. subst id' ts'. eexists. split; [reflexivity|]. split; [reflexivity|]. intros F m. apply Hb. exact F.
Qed.

(* literals and classes *)
Lemma g_literal : agree (nt "Literal") (l <- literal ;; ret (RLit l)) (exp_tree idLiteral).
Proof.
  nt. apply g_node. apply agree_map. apply agree_or; (eapply agree_weak; [apply g_quoted_ok|]); intros l _ ts (u & P) F st len m;
    change (conv s capg (CNode idLiteral st len ts) m) with (match conv_chars s ts with Some l => Some (PLit l, m) | None => None end); rewrite (conv_chars_ok l u ts P F); reflexivity.
Qed.
Definition range_tree (r : rchar * option rchar) (_ : list byte) (ts : list ctree) : Prop := exists t, ts = [t] /\ ct_id t = idRange /\ (range_ok r -> compile_set s t = Some (range_set r)).
Lemma g_range : agree (nt "Range") range range_tree.
Proof.
  nt. eapply (agree_cap _ _ _ _ (fun r _ ts => range_ok r -> forall t, kids t = ts -> compile_set s t = Some (range_set r))).
  - apply agree_or.
    + apply agree_assoc. eapply agree_bind; [apply g_char|]. intros a u ts (t & -> & Ha). eapply agree_bind; [apply agree_str|]. intros x u1 ts1 [-> ->]. apply agree_map. eapply agree_weak; [apply g_char|].
      intros b u2 ts2 (t2 & -> & Hb) [O1 O2] t0 Ht. cbn [app] in Ht. unfold compile_set. rewrite Ht, (Ha O1), (Hb O2). reflexivity.
    + apply agree_map. eapply agree_weak; [apply g_char|]. intros a u ts (t & -> & Ha) [O1 _] t0 Ht. unfold compile_set. rewrite Ht, (Ha O1). reflexivity.
  - intros r u ts t H Hi Hk _. exists t. split; [reflexivity|]. split; [exact Hi|]. intro O. apply H; assumption.
Qed.
Lemma conv_sets_ok : forall l u ts, parts range_tree l u ts -> Forall range_ok l -> forall x, conv_sets s ts x = Some (fold_left (fun x r => cs_add x (range_set r)) l x).
Proof.
  intros l u ts P. induction P as [|a l u us ts tss (t & -> & _ & Ht) P IH]; intros F x; [reflexivity|]. inversion F; subst. cbn [app conv_sets fold_left]. rewrite Ht, IH by assumption. reflexivity.
Qed.
Lemma g_carat : agree (nt "CARAT") (token [x5e]) (tok idCARAT).
Proof. nt. apply g_ctok. Qed.
Lemma g_class : agree (nt "Class") class (exp_tree idClass).
Proof.
  nt. apply g_node. unfold class. cbn [p_concat fold_left]. apply agree_assoc. apply agree_assoc. apply agree_assoc. eapply agree_bind; [apply agree_str|]. intros x u ts [-> ->].
  eapply agree_bind; [eapply agree_maybe; apply g_carat|]. intros neg u1 ts1 H1.
  eapply agree_bind; [apply agree_many; eapply agree_bind; [eapply agree_unless; apply agree_str|]; intros y u2 ts2 [-> ->]; cbn [app]; apply g_range|]. intros l u2 ts2 P.
  eapply agree_bind; [apply agree_str|]. intros y u3 ts3 [-> ->]. apply agree_map. eapply agree_weak; [apply g_spacing|]. intros z u4 ts4 -> [F N] st len m. cbn [app]. rewrite app_nil_r.
  change (conv s capg (CNode idClass st len (ts1 ++ ts2)) m) with (match conv_class s (ts1 ++ ts2) with Some p => Some (p, m) | None => None end). cbn [denote]. destruct neg as [n|].
  - destruct H1 as (t & -> & Ht). cbn [app conv_class]. rewrite Ht. cbn [Z.eqb]. change (idCARAT =? idCARAT)%Z with true. cbn [negb]. rewrite (conv_sets_ok l u2 ts2 P F). reflexivity.
  - destruct H1 as [-> ->]. cbn [app]. destruct N as [N|N]; [discriminate|]. pose proof (conv_sets_ok l u2 ts2 P F (cs_new [])) as Q.
    inversion P as [|a l' ua us ta tss (t & -> & Ht & _) P']; subst; [destruct N; reflexivity|]. cbn [app] in *. cbn [conv_class]. rewrite Ht. change (idRange =? idCARAT)%Z with false. rewrite Q. reflexivity.
Qed.

(* the other tokens *)
Lemma g_t0 : forall x l, assoc re_defs x = Some (PSeq (PLit l) (nt "Spacing")) -> agree (PNonTerm x None) (token l) quiet.
Proof. intros x l H. eapply agree_nt; [exact H|]. apply g_tok. Qed.
Lemma g_t1 : forall x l id, assoc re_defs x = Some (PCap (PSeq (PLit l) (nt "Spacing")) id) -> agree (PNonTerm x None) (token l) (tok id).
Proof. intros x l id H. eapply agree_nt; [exact H|]. apply g_ctok. Qed.

Section Level.
Variable ex : reader rexp.
Hypothesis Hex : agree (nt "Expression") ex (exp_tree idExpression).
Lemma g_nested : forall xo lo xc lc id (f : rexp -> rexp),
  assoc re_defs xo = Some (PCap (PSeq (PLit lo) (nt "Spacing")) id) -> assoc re_defs xc = Some (PSeq (PLit lc) (nt "Spacing")) ->
  (forall e t t0, ct_id t0 = id -> (plain e -> forall m, conv s capg t m = Some (denote e m)) -> body idPrimary (f e) [] [t0; t]) ->
  agree (PSeq (PSeq (PNonTerm xo None) (nt "Expression")) (PNonTerm xc None)) (token lo ;; e <- ex ;; token lc ;; ret (f e)) (body idPrimary).
Proof.
  intros xo lo xc lc id f Ho Hc H. apply agree_assoc. eapply agree_bind; [eapply g_t1; exact Ho|]. intros x u ts (t0 & -> & H0). eapply agree_bind; [exact Hex|]. intros e u1 ts1 (t & -> & _ & Ht).
  apply agree_map. eapply agree_weak; [eapply g_t0; exact Hc|]. intros y u2 ts2 ->. cbn [app]. exact (H e t t0 H0 Ht).
Qed.
Lemma g_primary : agree (nt "Primary") (primary ex) (exp_tree idPrimary).
Proof.
  nt. apply g_node. unfold primary. unfold p_or. cbn [rev app fold_left p_concat]. repeat apply agree_or.
  - eapply agree_bind; [apply g_identifier|]. intros x u ts (t & -> & Hi & Ht). apply agree_map. eapply agree_weak; [eapply agree_unless; apply (g_t0 "LEFTARROW"); reflexivity|].
    intros y u1 ts1 [-> ->] _ st len m. cbn [app]. destruct t as [id a b cs]. cbn in Hi. subst id. cbn [denote]. rewrite <- Ht. reflexivity.
  - apply (g_nested _ _ _ _ idOPEN (fun e => e)); [reflexivity|reflexivity|]. intros e t [id a b cs] Hi Ht F st len m. cbn in Hi. subst id. exact (Ht F m).
  - apply (g_nested _ _ _ _ idBRACEPO RMemo); [reflexivity|reflexivity|]. intros e t [id a b cs] Hi Ht F st len m. cbn in Hi. subst id. cbn [denote].
    change (match conv s capg t m with Some (p, m0) => Some (PMemo p m0, (m0 + 1)%Z) | None => None end = Some (let (p, m0) := denote e m in (PMemo p m0, (m0 + 1)%Z))). rewrite (Ht F m). destruct (denote e m). reflexivity.
  - apply (g_nested _ _ _ _ idBRACEO RBrace); [reflexivity|reflexivity|]. intros e t t0 _ _ [].
  - eapply agree_weak; [apply g_literal|]. intros e u ts ([id a b cs] & -> & Hi & Ht) F st len m. cbn in Hi. subst id. exact (Ht F m).
  - eapply agree_weak; [apply g_class|]. intros e u ts ([id a b cs] & -> & Hi & Ht) F st len m. cbn in Hi. subst id. exact (Ht F m).
  - apply agree_map. eapply agree_weak; [eapply g_t1; reflexivity|]. intros x u ts ([id a b cs] & -> & Hi) F st len m. cbn in Hi. subst id. reflexivity.
Qed.
Lemma g_suffix : agree (nt "Suffix") (suffix ex) (exp_tree idSuffix).
Proof.
  nt. apply g_node. eapply agree_bind; [apply g_primary|]. intros e u ts (t & -> & Hi & Ht). apply agree_map.
  eapply agree_weak; [eapply (agree_maybe _ _ _ (fun f _ ts => exists t1, ts = [t1] /\ forall st len, body idSuffix (f e) [] [t; t1])); unfold p_or; cbn [rev app fold_left]; repeat apply agree_or|].
  1-3: apply agree_map; (eapply agree_weak; [eapply g_t1; reflexivity|]); intros x u1 ts1 ([id a b cs] & -> & Hj); cbn in Hj; subst id; eexists; (split; [reflexivity|]); intros _ _ F st len m; cbn [denote];
    cbn [plain] in F; match goal with |- conv _ _ _ _ = Some (let (p, m0) := _ in (?c p, m0)) => change (match conv s capg t m with Some (p, m0) => Some (c p, m0) | None => None end = Some (let (p, m0) := denote e m in (c p, m0))) end; rewrite (Ht F m); destruct (denote e m); reflexivity.
  intros [f|] u1 ts1.
  - intros (t1 & -> & H). cbn [app]. exact (H 0 0).
  - intros [-> ->] F st len m. cbn [app]. exact (Ht F m).
Qed.
Lemma g_prefix : agree (nt "Prefix") (prefix ex) (exp_tree idPrefix).
Proof.
  nt. apply g_node. eapply agree_bind.
  - eapply (agree_maybe _ _ _ (fun f _ ts => exists t1, ts = [t1] /\ forall e t, (plain e -> forall m, conv s capg t m = Some (denote e m)) -> body idPrefix (f e) [] [t1; t])). unfold p_or. cbn [rev app fold_left]. apply agree_or;
    apply agree_map; (eapply agree_weak; [eapply g_t1; reflexivity|]); intros x u1 ts1 ([id a b cs] & -> & Hj); cbn in Hj; subst id; eexists; (split; [reflexivity|]); intros e t Ht F st len m; cbn [denote];
    cbn [plain] in F; match goal with |- conv _ _ _ _ = Some (let (p, m0) := _ in (?c p, m0)) => change (match conv s capg t m with Some (p, m0) => Some (c p, m0) | None => None end = Some (let (p, m0) := denote e m in (c p, m0))) end; rewrite (Ht F m); destruct (denote e m); reflexivity.
  - intros o u ts Ho. apply agree_map. eapply agree_weak; [apply g_suffix|]. intros e u1 ts1 (t & -> & Hi & Ht). destruct o as [f|].
    + destruct Ho as (t1 & -> & H). cbn [app]. exact (H e t Ht).
    + destruct Ho as [-> ->]. cbn [app]. intros F st len m. destruct t as [id a b cs]. cbn in Hi. subst id. exact (Ht F m).
Qed.
Lemma g_sequence : agree (nt "Sequence") (sequence ex) (exp_tree idSequence).
Proof.
  nt. apply g_node. apply agree_map. eapply agree_weak; [apply agree_many; apply g_prefix|]. intros l u ts P F st len m. rewrite conv_sequence, denote_cat, (conv_all_ok _ l u ts P F). destruct (denote_all l m). reflexivity.
Qed.
Lemma g_expression : agree (nt "Expression") (expression ex) (exp_tree idExpression).
Proof.
  nt. apply g_node. eapply agree_bind; [apply g_sequence|]. intros e u ts He. apply agree_map. eapply agree_weak.
  - apply agree_many. eapply agree_bind; [apply (g_t0 "SLASH"); reflexivity|]. intros x u1 ts1 ->. cbn [app].
    eapply agree_weak; [apply g_sequence|]. intros e1 u2 ts2 H2. instantiate (1 := fun e _ ts => exp_tree idSequence e [] ts). exact H2.
  - intros l u1 ts1 P F st len m. rewrite conv_expression, denote_or. assert (P' : parts (exp_tree idSequence) (e :: l) (u ++ u1) (ts ++ ts1)) by (constructor; [exact He|exact P]).
    rewrite (conv_all_ok _ _ _ _ P' F). destruct (denote_all (e :: l) m). reflexivity.
Qed.
End Level.
Lemma g_expr : forall n, agree (nt "Expression") (expr n) (exp_tree idExpression).
Proof. induction n as [|n IH]; [intros i w L; exact Logic.I|]. cbn [expr]. apply g_expression. exact IH. Qed.

(* ---------- grammars ---------- *)
Definition def_tree (d : list byte * rexp) (_ : list byte) (ts : list ctree) : Prop :=
  exists id a b ti te, ts = [CNode id a b [ti; te]] /\ parse_id s ti = name (fst d) /\ (plain (snd d) -> forall m, conv s capg te m = Some (denote (snd d) m)).
Lemma g_definition : forall n, agree (nt "Definition") (definition n) def_tree.
Proof.
  intro n. nt. eapply (agree_cap _ _ _ _ (fun d _ ts => exists ti te, ts = [ti; te] /\ parse_id s ti = name (fst d) /\ (plain (snd d) -> forall m, conv s capg te m = Some (denote (snd d) m)))).
  - apply agree_assoc. eapply agree_bind; [apply g_identifier|]. intros x u ts (ti & -> & _ & Hi). eapply agree_bind; [apply (g_t0 "LEFTARROW"); reflexivity|]. intros y u1 ts1 ->. apply agree_map. eapply agree_weak; [apply g_expr|].
    intros e u2 ts2 (te & -> & _ & He). cbn [app]. exists ti, te. auto.
  - intros d u ts [id a b cs] (ti & te & -> & H1 & H2) _ Hk _. cbn in Hk. subst cs. exists id, a, b, ti, te. auto.
Qed.
Lemma agree_plus : forall A X (f : reader A) R, agree X f R -> agree (PPlus X) (d <- f ;; l <- many f ;; ret (d :: l)) (fun l u ts => l <> [] /\ parts R l u ts).
Proof.
  intros A X f R F. assert (H : agree (PSeq X (PStar X)) (d <- f ;; l <- many f ;; ret (d :: l)) (fun l u ts => l <> [] /\ parts R l u ts)).
  { eapply agree_bind; [exact F|]. intros d u ts Hd. apply agree_map. eapply agree_weak; [apply agree_many; exact F|]. intros l u1 ts1 P. split; [discriminate|constructor; assumption]. }
  intros i w L. specialize (H i w L). destruct (bind _ _ (skipn i s)) as [| |l rest]; [exact Logic.I|apply peg_plus; exact H|]. destruct H as (u & ts & H1 & H2 & H3). exists u, ts. split; [exact H1|]. split; [apply peg_plus; exact H2|exact H3].
Qed.
Definition put_all (l : list (string * pattern)) (acc : list (string * pattern)) : list (string * pattern) := fold_left (fun acc d => put_def (fst d) (snd d) acc) l acc.
Lemma conv_defs_ok : forall l u ts, parts def_tree l u ts -> Forall (fun d => plain (snd d)) l -> forall acc m, conv_defs ts acc m = Some (put_all (fst (denote_defs l m)) acc, snd (denote_defs l m)).
Proof.
  intros l u ts P. induction P as [|[x e] l u us ts tss (id & a & b & ti & te & -> & H1 & H2) P IH]; intros F acc m; [reflexivity|]. inversion F as [|? ? F1 F2]; subst. cbn [fst snd] in *. cbn [app conv_defs denote_defs]. rewrite (H2 F1 m), H1.
  destruct (denote e m) as [p m1] eqn:E. cbn [fst snd]. rewrite (IH F2). destruct (denote_defs l m1). reflexivity.
Qed.
Definition first_name (l : list (list byte * rexp)) : string := match l with (x, _) :: _ => name x | [] => ""%string end.
Definition put_grammar (l : list (list byte * rexp)) (m : Z) : pattern :=
  let d := put_all (fst (denote_defs l m)) [] in if capg then fst (p_cap_grammar (first_name l) d) else PGrammar d (first_name l).
Definition top_tree (p : rtop) (_ : list byte) (ts : list ctree) : Prop :=
  exists t, ts = [t] /\ (plain_top p -> forall m, conv s capg t m = Some (match p with TExpr e => denote e m | TGrammar l => (put_grammar l m, snd (denote_defs l m)) end)).
Lemma g_grammar : forall n, agree (nt "Grammar") (grammar n) (fun l u ts => top_tree (TGrammar l) u ts).
Proof.
  intro n. nt. eapply agree_cap; [apply agree_plus; apply g_definition|]. intros l u ts [id a b cs] [N P] Hi Hk _. cbn in Hi, Hk. subst id cs. eexists. split; [reflexivity|]. intros F m. rewrite conv_grammar, (conv_defs_ok l u ts P F).
  unfold put_grammar. destruct l as [|[x e] l]; [destruct N; reflexivity|]. inversion P as [|? ? ua us ta tss (id & a' & b' & ti & te & -> & H1 & H2) P']; subst. cbn [app first_name fst] in *. rewrite H1. reflexivity.
Qed.
Lemma g_top : forall n, agree (nt "Pattern") (top n) top_tree.
Proof.
  intro n. nt. eapply agree_cap.
  - apply agree_assoc. eapply agree_bind; [apply g_spacing|]. intros x u ts ->. eapply agree_bind.
    + apply agree_or; apply agree_map; [apply g_grammar|]. eapply agree_weak; [apply g_expr|]. intros e u1 ts1 (t & -> & _ & Ht). exists t. split; [reflexivity|]. exact Ht.
    + intros p u1 ts1 (t & -> & Ht). apply agree_map. eapply agree_weak; [eapply agree_nt; [reflexivity|]; eapply agree_unless; apply agree_any|]. intros y u2 ts2 [-> ->]. cbn [app].
      instantiate (1 := fun p _ ts => exists t, ts = [t] /\ (plain_top p -> forall m, conv s capg t m = Some (match p with TExpr e => denote e m | TGrammar l => (put_grammar l m, snd (denote_defs l m)) end))).
      exists t. auto.
  - intros p u ts [id a b cs] (t & -> & Ht) Hi Hk _. cbn in Hi, Hk. subst id cs. eexists. split; [reflexivity|]. intros F m. exact (Ht F m).
Qed.
Lemma start_rule : forall w r w', peg (nt "Pattern") 0 w r w' -> Spec_Peg.peg s check [] re_grammar 0 w r w'.
Proof.
  intros w r w' H. inversion H; subst. match goal with H : lookup _ _ = _, H' : Spec_Peg.peg _ _ _ _ _ _ _ _ |- _ => rename H into Hl end. match goal with H : Spec_Peg.peg _ _ ?e ?b _ _ _ _, G : _ = Some (?b, ?e) |- _ => rename H into Hp end. assert (Q : lookup [re_defs] "Pattern" = Some (snd (hd (""%string, PEmpty) re_defs), [re_defs])) by reflexivity.
  rewrite Q in Hl. injection Hl as <- <-. eapply peg_grammar; [reflexivity|exact Hp].
Qed.
Lemma bind_yes : forall A B (f : reader A) (g : A -> reader B) t b rest, bind f g t = Yes b rest -> exists a t', f t = Yes a t' /\ g a t' = Yes b rest.
Proof. intros A B f g t b rest H. unfold bind in H. destruct (f t) as [| |a t'] eqn:E; try discriminate. exists a, t'. auto. Qed.
(** the whole text *)
Lemma re_parse : forall w, match read s with
  | Out => False
  | No => Spec_Peg.peg s check [] re_grammar 0 w RFail w
  | Yes p rest => exists ts, Spec_Peg.peg s check [] re_grammar 0 w (RSucc (List.length s) ts) w /\ rest = [] /\ top_tree p [] ts
  end.
Proof.
  intro w. pose proof (g_top (S (List.length s)) 0 w (Nat.le_0_l _)) as H. rewrite skipn_O in H. fold (read s) in H. pose proof (read_total s) as T. destruct (read s) as [| |p rest] eqn:E; [exact (T eq_refl)| |].
  - apply start_rule. exact H.
  - destruct H as (u & ts & H1 & H2 & H3). assert (Er : rest = []).
    { clear - E. unfold read, top in E. apply bind_yes in E as (x & t1 & _ & E). apply bind_yes in E as (q & t2 & _ & E). apply bind_yes in E as (y & t3 & H & E). injection E as _ <-.
      unfold end_of_file, unless, any, sat in H. destruct t2 as [|b t2]; [|discriminate H]. injection H as _ <-. reflexivity. }
    subst rest. rewrite app_nil_r in H1. subst u. exists ts. split; [|split; [reflexivity|exact H3]]. apply start_rule. exact H2.
Qed.
End Peg.
