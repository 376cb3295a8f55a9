(** Patterns that do what functions on texts do, for any grammar. *)
From Coq Require Import ZArith String.
From Verif Require Import Base Model_Charset Model_Isa Model_Capture Model_Pattern Model_Re Spec_Peg Spec_Re Proof_Charset Proof_Re.
Local Open Scope nat_scope.

(* ---------- patterns and readers ---------- *)
Section Peg.
Variable defs : list (string * pattern).
Variable s : list byte.
Variable CS : Type.
Variable check : nat -> CS -> list byte -> list byte -> nat -> Z -> Z -> CS * option nat.
Notation peg := (peg s check [defs]).
Definition agree {A} (X : pattern) (f : reader A) (R : A -> list byte -> list ctree -> Prop) : Prop :=
  forall i w, i <= List.length s ->
  match f (skipn i s) with
  | Out => True
  | No => peg X i w RFail w
  | Yes a rest => exists u ts, skipn i s = u ++ rest /\ peg X i w (RSucc (i + List.length u) ts) w /\ R a u ts
  end.
Lemma rest_skip : forall i u rest, skipn i s = u ++ rest -> i <= List.length s -> rest = skipn (i + List.length u) s /\ i + List.length u <= List.length s.
Proof.
  intros i u rest H L. split.
  - rewrite <- skipn_skipn', H, skipn_app, skipn_all, Nat.sub_diag. reflexivity.
  - assert (List.length (skipn i s) = List.length u + List.length rest) by (rewrite H, app_length; reflexivity). rewrite skipn_length in H0. lia.
Qed.
Lemma no_succ : forall j ts, RFail <> RSucc j ts.
Proof. discriminate. Qed.
Lemma agree_weak : forall A X (f : reader A) R (R' : A -> list byte -> list ctree -> Prop), agree X f R -> (forall a u ts, R a u ts -> R' a u ts) -> agree X f R'.
Proof. intros A X f R R' H W i w L. specialize (H i w L). destruct (f (skipn i s)) as [| |a rest]; [exact H|exact H|]. destruct H as (u & ts & H1 & H2 & H3). exists u, ts. auto. Qed.
Lemma agree_bind : forall A B X Y (f : reader A) (g : A -> reader B) R1 (R : B -> list byte -> list ctree -> Prop), agree X f R1 ->
  (forall a u ts, R1 a u ts -> agree Y (g a) (fun b u' ts' => R b (u ++ u') (ts ++ ts'))) -> agree (PSeq X Y) (bind f g) R.
Proof.
  intros A B X Y f g R1 R F G i w L. unfold bind. specialize (F i w L). destruct (f (skipn i s)) as [| |a rest]; [exact Logic.I|eapply peg_seq_no1; [exact F|exact no_succ]|].
  destruct F as (u & ts & H1 & H2 & H3). destruct (rest_skip i u rest H1 L) as [-> L']. specialize (G a u ts H3 _ w L'). destruct (g a _) as [| |b rest']; [exact Logic.I|eapply peg_seq_no2; [exact H2|exact G|exact no_succ]|].
  destruct G as (u' & ts' & G1 & G2 & G3). exists (u ++ u'), (ts ++ ts'). split; [rewrite H1, G1, app_assoc; reflexivity|]. split; [|exact G3]. rewrite app_length, Nat.add_assoc. eapply peg_seq_ok; eassumption.
Qed.
Lemma agree_map : forall A B X (f : reader A) (h : A -> B) (R : B -> list byte -> list ctree -> Prop), agree X f (fun a u ts => R (h a) u ts) -> agree X (bind f (fun a => ret (h a))) R.
Proof. intros A B X f h R F i w L. unfold bind, ret. specialize (F i w L). destruct (f (skipn i s)); exact F. Qed.
Lemma agree_assoc : forall A a b c (f : reader A) R, agree (PSeq a (PSeq b c)) f R -> agree (PSeq (PSeq a b) c) f R.
Proof.
  intros A a b c f R H i w L. specialize (H i w L). assert (Q : forall r w', peg (PSeq a (PSeq b c)) i w r w' -> peg (PSeq (PSeq a b) c) i w r w').
  { intros r w' P. inversion P; subst.
    - match goal with H : peg (PSeq b c) _ _ _ _ |- _ => inversion H; subst end; try (exfalso; match goal with H : forall j ts, RSucc _ _ <> _ |- _ => eapply H; reflexivity end). rewrite app_assoc. eapply peg_seq_ok; [eapply peg_seq_ok; eassumption|eassumption].
    - apply peg_seq_no1; [apply peg_seq_no1|]; assumption.
    - match goal with H : peg (PSeq b c) _ _ _ _ |- _ => inversion H; subst end.
      + exfalso. match goal with H : forall j ts, RSucc _ _ <> _ |- _ => eapply H; reflexivity end.
      + apply peg_seq_no1; [eapply peg_seq_no2; eassumption|assumption].
      + eapply peg_seq_no2; [eapply peg_seq_ok; eassumption|eassumption|assumption]. }
  destruct (f (skipn i s)) as [| |x rest]; [exact Logic.I|apply Q; exact H|]. destruct H as (u & ts & H1 & H2 & H3). exists u, ts. auto.
Qed.
Lemma agree_or : forall A X Y (f g : reader A) R, agree X f R -> agree Y g R -> agree (PAlt X Y) (orelse f g) R.
Proof.
  intros A X Y f g R F G i w L. unfold orelse. specialize (F i w L). destruct (f (skipn i s)) as [| |a rest]; [exact Logic.I| |].
  - specialize (G i w L). destruct (g (skipn i s)) as [| |a rest]; [exact Logic.I|eapply peg_alt_2; eassumption|]. destruct G as (u & ts & H1 & H2 & H3). exists u, ts. split; [exact H1|]. split; [|exact H3]. eapply peg_alt_2; eassumption.
  - destruct F as (u & ts & H1 & H2 & H3). exists u, ts. split; [exact H1|]. split; [|exact H3]. apply peg_alt_1; [exact H2|discriminate].
Qed.
Lemma agree_unless : forall A X (f : reader A) R, agree X f R -> agree (PNot X) (unless f) (fun _ u ts => u = [] /\ ts = []).
Proof.
  intros A X f R F i w L. unfold unless. specialize (F i w L). destruct (f (skipn i s)) as [| |a rest]; [exact Logic.I| |].
  - exists [], []. split; [reflexivity|]. split; [|auto]. cbn. rewrite Nat.add_0_r. apply peg_not_ok. exact F.
  - destruct F as (u & ts & H1 & H2 & H3). eapply peg_not_fail. exact H2.
Qed.
Lemma agree_maybe : forall A X (f : reader A) R, agree X f R -> agree (POpt X) (maybe f) (fun o u ts => match o with Some a => R a u ts | None => u = [] /\ ts = [] end).
Proof.
  intros A X f R F i w L. unfold maybe. specialize (F i w L). destruct (f (skipn i s)) as [| |a rest]; [exact Logic.I| |].
  - exists [], []. split; [reflexivity|]. split; [|auto]. cbn. rewrite Nat.add_0_r. apply peg_opt. eapply peg_alt_2; [exact F|apply peg_empty].
  - destruct F as (u & ts & H1 & H2 & H3). exists u, ts. split; [exact H1|]. split; [|exact H3]. apply peg_opt. apply peg_alt_1; [exact H2|discriminate].
Qed.
(** the parts of a repetition *)
Inductive parts {A} (R : A -> list byte -> list ctree -> Prop) : list A -> list byte -> list ctree -> Prop :=
| parts_nil : parts R [] [] []
| parts_cons : forall a l u us ts tss, R a u ts -> parts R l us tss -> parts R (a :: l) (u ++ us) (ts ++ tss).
Lemma agree_many : forall A X (f : reader A) R, agree X f R -> agree (PStar X) (many f) (parts R).
Proof.
  intros A X f R F i w L. unfold many. assert (Q : forall n i, i <= List.length s -> match many' n f (skipn i s) with Out => True | No => peg (PStar X) i w RFail w
    | Yes a rest => exists u ts, skipn i s = u ++ rest /\ peg (PStar X) i w (RSucc (i + List.length u) ts) w /\ parts R a u ts end).
  { clear i L. induction n as [|n IH]; intros i L; [exact Logic.I|]. cbn [many']. specialize (F i w L). destruct (f (skipn i s)) as [| |a rest]; [exact Logic.I| |].
    - exists [], []. split; [reflexivity|]. split; [|constructor]. cbn. rewrite Nat.add_0_r. apply peg_star_end. exact F.
    - destruct F as (u & ts & H1 & H2 & H3). destruct (rest_skip i u rest H1 L) as [-> L']. specialize (IH _ L'). destruct (many' n f _) as [| |l rest'] eqn:Em; [exact Logic.I| |].
      + exfalso. assert (NN : forall n t, many' n f t <> No) by (clear; induction n as [|n IH]; intro t; [discriminate|]; cbn; destruct (f t); try discriminate; destruct (many' n f rest) eqn:E; try discriminate; destruct (IH _ E)). exact (NN _ _ Em).
      + destruct IH as (us & tss & G1 & G2 & G3). exists (u ++ us), (ts ++ tss). split; [rewrite H1, G1, app_assoc; reflexivity|]. split; [|constructor; assumption]. rewrite app_length, Nat.add_assoc. eapply peg_star_more; eassumption. }
  apply Q. exact L.
Qed.
Lemma agree_sat : forall P c, (forall b, cs_has c b = P b) -> agree (PClass c) (sat P) (fun b u ts => u = [b] /\ P b = true /\ ts = []).
Proof.
  intros P c H i w L. assert (E : nth_error s i = hd_error (skipn i s)) by (rewrite skipn_nth_error; destruct (nth_error s i); reflexivity). unfold sat. destruct (skipn i s) as [|b t] eqn:Es; cbn in E.
  - apply peg_class_end. exact E.
  - destruct (P b) eqn:Eb.
    + exists [b], []. split; [reflexivity|]. split; [|auto]. cbn. rewrite Nat.add_1_r. eapply peg_class_ok; [exact E|]. rewrite H. exact Eb.
    + eapply peg_class_fail; [exact E|]. rewrite H. exact Eb.
Qed.
Lemma agree_any : agree (PDot x01) any (fun b u ts => u = [b] /\ ts = []).
Proof.
  intros i w L. unfold any, sat. destruct (skipn i s) as [|b t] eqn:Es.
  - apply peg_dot_fail. assert (List.length (skipn i s) = 0) by (rewrite Es; reflexivity). rewrite skipn_length in H. cbn. lia.
  - exists [b], []. split; [reflexivity|]. split; [|auto]. apply (peg_dot_ok s CS check [defs] x01 i w). assert (List.length (skipn i s) = S (List.length t)) by (rewrite Es; reflexivity). rewrite skipn_length in H. cbn. lia.
Qed.
Lemma str_spec : forall l t, match str l t with Out => False | No => firstn (List.length l) t <> l | Yes _ r => t = l ++ r end.
Proof.
  induction l as [|b l IH]; intro t; [reflexivity|]. cbn [str]. unfold bind, sat. destruct t as [|c t]; [discriminate|]. unfold is. destruct (byte_eqb b c) eqn:E.
  - apply byte_eqb_eq in E. subst c. specialize (IH t). destruct (str l t) as [| |x r]; [exact IH|cbn; congruence|cbn; congruence].
  - apply byte_eqb_neq in E. cbn. congruence.
Qed.
Lemma agree_str : forall l, agree (PLit l) (str l) (fun _ u ts => u = l /\ ts = []).
Proof.
  intros l i w L. pose proof (str_spec l (skipn i s)) as H. destruct (str l (skipn i s)) as [| |x r]; [exact Logic.I|apply peg_lit_fail; exact H|].
  exists l, []. split; [exact H|]. split; [|auto]. apply peg_lit_ok. rewrite H, firstn_app, Nat.sub_diag, firstn_all. cbn. apply app_nil_r.
Qed.
Lemma agree_is : forall b, agree (PLit [b]) (sat (is b)) (fun _ u ts => u = [b] /\ ts = []).
Proof.
  intros b i w L. pose proof (agree_str [b] i w L) as H. assert (E : str [b] (skipn i s) = match sat (is b) (skipn i s) with Yes _ r => Yes tt r | No => No | Out => Out end) by reflexivity.
  rewrite E in H. destruct (sat (is b) (skipn i s)); exact H.
Qed.
Lemma agree_nt : forall A x X (f : reader A) R, assoc defs x = Some X -> agree X f R -> agree (PNonTerm x None) f R.
Proof.
  intros A x X f R E F i w L. specialize (F i w L). assert (G : lookup [defs] x = Some (X, [defs])) by (cbn [lookup]; rewrite E; reflexivity).
  destruct (f (skipn i s)) as [| |a rest]; [exact Logic.I|eapply peg_nonterm; eassumption|]. destruct F as (u & ts & H1 & H2 & H3). exists u, ts. split; [exact H1|]. split; [|exact H3]. eapply peg_nonterm; eassumption.
Qed.
Lemma agree_plus : forall A X (f : reader A) R, agree X f R -> agree (PPlus X) (d <- f ;; l <- many f ;; ret (d :: l)) (fun l u ts => l <> [] /\ parts R l u ts).
Proof.
  intros A X f R F. assert (H : agree (PSeq X (PStar X)) (d <- f ;; l <- many f ;; ret (d :: l)) (fun l u ts => l <> [] /\ parts R l u ts)).
  { eapply agree_bind; [exact F|]. intros d u ts Hd. apply agree_map. eapply agree_weak; [apply agree_many; exact F|]. intros l u1 ts1 P. split; [discriminate|constructor; assumption]. }
  intros i w L. specialize (H i w L). destruct (bind _ _ (skipn i s)) as [| |l rest]; [exact Logic.I|apply peg_plus; exact H|]. destruct H as (u & ts & H1 & H2 & H3). exists u, ts. split; [exact H1|]. split; [apply peg_plus; exact H2|exact H3].
Qed.

(** only the texts matter *)
Definition ag {A} (X : pattern) (f : reader A) : Prop := agree X f (fun _ _ _ => True).
Lemma ag_of : forall A X (f : reader A) R, agree X f R -> ag X f.
Proof. intros A X f R H. eapply agree_weak; [exact H|auto]. Qed.
Lemma ag_seq : forall A B X Y (f : reader A) (g : reader B), ag X f -> ag Y g -> ag (PSeq X Y) (f ;; g).
Proof. intros A B X Y f g F G. eapply agree_bind; [exact F|]. intros a u ts _. exact G. Qed.
Lemma ag_unit : forall A X (f : reader A), ag X f -> ag X (f ;; ret tt).
Proof. intros A X f F. apply (agree_map _ _ X f (fun _ => tt)). exact F. Qed.
Lemma ag_or : forall A X Y (f g : reader A), ag X f -> ag Y g -> ag (PAlt X Y) (f // g).
Proof. intros A X Y f g F G. apply agree_or; assumption. Qed.
Lemma ag_unless : forall A X (f : reader A), ag X f -> ag (PNot X) (unless f).
Proof. intros A X f F. eapply ag_of, agree_unless. exact F. Qed.
Lemma ag_maybe : forall A X (f : reader A), ag X f -> ag (POpt X) (maybe f).
Proof. intros A X f F. eapply ag_of, agree_maybe. exact F. Qed.
Lemma ag_many : forall A X (f : reader A), ag X f -> ag (PStar X) (many f).
Proof. intros A X f F. eapply ag_of, agree_many. exact F. Qed.
Lemma ag_plus : forall A X (f : reader A), ag X f -> ag (PPlus X) (f ;; many f).
Proof.
  intros A X f F i w L. pose proof (ag_seq _ _ _ _ _ _ F (ag_many _ _ _ F) i w L) as H. destruct ((f ;; many f) (skipn i s)) as [| |l rest]; [exact Logic.I|apply peg_plus; exact H|].
  destruct H as (u & ts & H1 & H2 & H3). exists u, ts. split; [exact H1|]. split; [apply peg_plus; exact H2|exact H3].
Qed.
Lemma ag_memo : forall A X id (f : reader A), ag X f -> ag (PMemo X id) f.
Proof.
  intros A X id f F i w L. specialize (F i w L). destruct (f (skipn i s)) as [| |l rest]; [exact Logic.I|apply peg_memo; exact F|].
  destruct F as (u & ts & H1 & H2 & H3). exists u, ts. split; [exact H1|]. split; [apply peg_memo; exact H2|exact H3].
Qed.
Lemma ag_cap : forall A X id (f : reader A), ag X f -> ag (PCap X id) f.
Proof.
  intros A X id f F i w L. specialize (F i w L). destruct (f (skipn i s)) as [| |l rest]; [exact Logic.I|apply peg_cap_no; [exact F|exact no_succ]|].
  destruct F as (u & ts & H1 & H2 & H3). exists u, [CNode id i (i + List.length u - i) ts]. split; [exact H1|]. split; [apply peg_cap_ok; exact H2|exact H3].
Qed.
Lemma ag_sat : forall P c, (forall b, cs_has c b = P b) -> ag (PClass c) (sat P).
Proof. intros P c H. eapply ag_of, agree_sat. exact H. Qed.
Lemma ag_any : ag (PDot x01) any.
Proof. eapply ag_of, agree_any. Qed.
Lemma ag_str : forall l, ag (PLit l) (str l).
Proof. intro l. eapply ag_of, agree_str. Qed.
Lemma ag_nt : forall A x X (f : reader A), assoc defs x = Some X -> ag X f -> ag (PNonTerm x None) f.
Proof. intros A x X f E F. eapply agree_nt; eassumption. Qed.
End Peg.
