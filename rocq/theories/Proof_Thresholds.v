(** Programs of grammars for every inline threshold. *)
From Coq Require Import ZArith String.
From Verif Require Import Base Model_Charset Model_Isa Model_Code Model_Pattern Model_Re Spec_Re Spec_Scope Spec_Grammars Spec_GrammarSize Spec_Thresholds Proof_Compile Proof_GrammarSize.
Local Open Scope nat_scope.

(* ---------- compiling without grammars ---------- *)
Lemma plain_get_f : forall n p, plain_pattern p = true -> plain_pattern (get_f n p) = true.
Proof.
  induction n as [|n IH]; intros p H; [exact H|]. destruct p; cbn [get_f]; try exact H.
  - pose proof H as HP. cbn [plain_pattern] in H. apply andb_prop in H as [H1 H2]. pose proof (IH _ H1) as G1. pose proof (IH _ H2) as G2.
    destruct (get_f n p1) eqn:E1; try reflexivity; destruct (get_f n p2) eqn:E2;
      try (match goal with |- context [combine ?a ?b] => destruct (combine a b); [reflexivity|exact HP] end);
      try (apply IH; exact G1).
  - pose proof H as HP. cbn [plain_pattern] in H. apply andb_prop in H as [H1 H2]. pose proof (IH _ H1) as G1. pose proof (IH _ H2) as G2.
    destruct (get_f n p2) eqn:E2; try exact G1; destruct (get_f n p1) eqn:E1; try exact HP; try exact G2.
    all: match goal with |- context [get_not_seq ?a ?b ?c] => destruct (get_not_seq_cases a b c) as [->|(set & ->)]; [exact HP|reflexivity] end.
  - pose proof (IH p H) as G. destruct (get_f n p); try exact H. exact G.
  - destruct inl; [exact H|reflexivity].
Qed.
Lemma plain_get : forall p, plain_pattern p = true -> plain_pattern (get p) = true.
Proof. intros. apply plain_get_f. assumption. Qed.

Lemma bind_same : forall r r' k k', r = r' -> (forall c st, k c st = k' c st) -> cbind r k = cbind r' k'.
Proof. intros r r' k k' -> H. destruct r'; cbn; auto. Qed.
Lemma compile_plain : forall thr thr' n p st, plain_pattern p = true -> compile_f thr n p st = compile_f thr' n p st.
Proof.
  intros thr thr'. induction n as [|n IH]; intros p st H; [reflexivity|].
  assert (IG : forall q st, plain_pattern q = true -> compile_f thr n (get q) st = compile_f thr' n (get q) st) by (intros; apply IH, plain_get; assumption).
  destruct p; cbn [compile_f plain_pattern] in *; try discriminate H; try reflexivity.
  - apply andb_prop in H as [H1 H2]. destruct (combine _ _); [reflexivity|].
    apply bind_same; [apply IG; exact H1|]. intros. apply bind_same; [apply IG; exact H2|]. intros. reflexivity.
  - apply andb_prop in H as [H1 H2]. apply bind_same; [apply IG; exact H1|]. intros. apply bind_same; [apply IG; exact H2|]. intros. reflexivity.
  - pose proof (plain_get _ H) as G. destruct (get p) eqn:E; try discriminate G; try reflexivity;
      (apply bind_same; [first [apply IG; exact G|apply IH; exact G]|intros; reflexivity]).
  - apply bind_same; [apply IH; cbn; apply plain_get; exact H|]. intros. apply bind_same; [apply IG; exact H|]. intros. reflexivity.
  - pose proof (plain_get _ H) as G. destruct (get p) eqn:E; try discriminate G; try reflexivity;
      try (apply IH; cbn [plain_pattern] in *; rewrite ?G; reflexivity).
    destruct str as [|b [|]]; try reflexivity; apply IH; reflexivity.
  - apply bind_same; [apply IG; exact H|intros; reflexivity].
  - apply bind_same; [apply IG; exact H|intros; reflexivity].
  - apply bind_same; [apply IG; exact H|intros; reflexivity].
  - destruct (new_label st). apply bind_same; [apply IG; exact H|intros; reflexivity].
  - destruct (new_label st). apply bind_same; [apply IG; exact H|intros; reflexivity].
  - destruct inl as [q|]; [apply IH; exact H|reflexivity].
  - destruct recover as [q|]; [|reflexivity]. apply bind_same; [apply IG; exact H|intros; reflexivity].
Qed.
Lemma pieces_plain : forall thr thr' n start used ds st, forallb (fun kq => plain_pattern (snd kq)) ds = true ->
  pieces thr n start used ds st = pieces thr' n start used ds st.
Proof.
  intros thr thr' n start used. induction ds as [|[k v] ds IH]; intros st H; [reflexivity|]. cbn [forallb snd] in H. apply andb_prop in H as [H1 H2].
  cbn [pieces]. destruct (_ && _); [apply IH; exact H2|]. destruct (new_label st) as [lbl st1]. rewrite (compile_plain thr thr' n v st1 H1).
  destruct (compile_f thr' n v st1); try reflexivity. rewrite IH by exact H2. reflexivity.
Qed.

(* ---------- Inline ---------- *)
Definition over (m : option nat) (k : nat) : Prop := match m with Some x => k <= x | None => True end.
Lemma min_over : forall a b k, over (min_opt a b) k <-> over a k /\ over b k.
Proof. intros [a|] [b|] k; cbn; try tauto. lia. Qed.
Lemma kept_over : forall thr thr' defs, over (kept_size thr defs) thr' ->
  forall k q, In (k, q) defs -> is_leaf q = true -> thr <= psize q -> thr' <= psize q.
Proof.
  intros thr thr'. unfold kept_size. induction defs as [|[k0 q0] defs IH]; intros H k q Hin L S; [destruct Hin|]. cbn [fold_right snd] in H. destruct Hin as [E|Hin].
  - injection E as -> ->. rewrite L, (proj2 (Nat.leb_le _ _) S) in H. cbn [andb] in H. apply min_over in H as [H _]. exact H.
  - destruct (is_leaf q0 && (thr <=? psize q0)); [apply min_over in H as [_ H]|]; eapply IH; eauto.
Qed.
Lemma assoc_in : forall A (l : list (string * A)) x v, assoc l x = Some v -> exists k, In (k, v) l.
Proof.
  induction l as [|[k w] l IH]; intros x v H; [discriminate|]. cbn [assoc] in H. destruct (String.eqb k x).
  - injection H as ->. exists k. left. reflexivity.
  - destruct (IH x v H) as [k' K]. exists k'. right. exact K.
Qed.
Lemma choice_same : forall thr thr' defs x, thr <= thr' -> over (kept_size thr defs) thr' -> inline_choice thr' defs x = inline_choice thr defs x.
Proof.
  intros thr thr' defs x H O. unfold inline_choice. destruct (assoc defs x) as [q|] eqn:E; [|reflexivity].
  destruct (assoc_in _ defs x q E) as [k K]. destruct (is_leaf q) eqn:L; [|rewrite !Bool.andb_false_r; reflexivity]. rewrite !Bool.andb_true_r.
  destruct (Nat.ltb_spec (psize q) thr) as [A|A].
  - rewrite (proj2 (Nat.ltb_lt _ _)) by lia. reflexivity.
  - pose proof (kept_over thr thr' defs O k q K L A). rewrite (proj2 (Nat.ltb_ge _ _)) by lia. reflexivity.
Qed.
Lemma inline_in_ext : forall f g, (forall x, f x = g x) -> forall p, inline_in f p = inline_in g p.
Proof.
  intros f g H. fix IH 1. intro p. destruct p; cbn [inline_in]; try reflexivity; try (rewrite ?IH; try rewrite IH; reflexivity).
  - f_equal. revert defs. fix go 1. intros [|[k q] l]; [reflexivity|]. rewrite IH, go. reflexivity.
  - destruct inl as [q|]; [rewrite IH|rewrite H]; reflexivity.
  - destruct recover as [q|]; [rewrite IH|]; reflexivity.
Qed.
Lemma did_same : forall thr thr' defs, (forall x, inline_choice thr' defs x = inline_choice thr defs x) -> did_inline thr' defs = did_inline thr defs.
Proof.
  intros thr thr' defs H. unfold did_inline.
  assert (G : forall l : list (string * pattern), existsb (fun kq => existsb (fun x => match inline_choice thr' defs x with Some _ => true | None => false end) (open_nts (snd kq))) l =
    existsb (fun kq => existsb (fun x => match inline_choice thr defs x with Some _ => true | None => false end) (open_nts (snd kq))) l); [|apply G].
  induction l as [|kq l IH]; [reflexivity|]. cbn [existsb]. rewrite IH. f_equal. induction (open_nts (snd kq)) as [|x xs IHx]; [reflexivity|]. cbn [existsb]. rewrite IHx, H. reflexivity.
Qed.
Lemma chosen_choice : forall thr defs x, chosen (choices thr defs) x = inline_choice thr defs x.
Proof.
  intros thr defs x. unfold chosen, inline_choice, choices. induction defs as [|[k q] defs IH]; [reflexivity|]. cbn [map assoc fst snd]. destruct (String.eqb k x); [reflexivity|exact IH].
Qed.
Lemma exists_ext : forall A (f g : A -> bool) l, (forall x, f x = g x) -> existsb f l = existsb g l.
Proof. intros A f g l H. induction l as [|x l IH]; [reflexivity|]. cbn [existsb]. rewrite H, IH. reflexivity. Qed.
Lemma did_eq : forall thr defs,
  existsb (fun kq => existsb (fun x => match chosen (choices thr defs) x with Some _ => true | None => false end) (open_nts (snd kq))) defs = did_inline thr defs.
Proof. intros thr defs. unfold did_inline. apply exists_ext. intro kq. apply exists_ext. intro x. rewrite chosen_choice. reflexivity. Qed.
Lemma pass_eq : forall thr defs, map (fun kq => (fst kq, inline_in (chosen (choices thr defs)) (snd kq))) defs = inline_pass thr defs.
Proof. intros thr defs. unfold inline_pass. apply map_ext. intros [k q]. cbn [fst snd]. f_equal. apply inline_in_ext. apply chosen_choice. Qed.
Lemma border_same : forall thr thr' n defs, thr <= thr' -> over (snd (border thr n defs)) thr' -> inline_n thr' n defs = fst (border thr n defs).
Proof.
  intros thr thr'. induction n as [|n IH]; intros defs H O; [reflexivity|]. cbn [border] in *. cbv zeta in *. rewrite did_eq, pass_eq in *. cbn [inline_n].
  assert (O1 : over (kept_size thr defs) thr').
  { destruct (did_inline thr defs); [|exact O]. destruct (border thr n (inline_pass thr defs)). cbn [snd] in O. apply min_over in O as [O _]. exact O. }
  pose proof (fun x => choice_same thr thr' defs x H O1) as C. rewrite (did_same thr thr' defs C). destruct (did_inline thr defs); [|reflexivity].
  assert (E : inline_pass thr' defs = inline_pass thr defs) by (unfold inline_pass; apply map_ext; intros [k q]; cbn [fst snd]; f_equal; apply inline_in_ext; exact C).
  rewrite E. specialize (IH (inline_pass thr defs) H). destruct (border thr n (inline_pass thr defs)) as [d m]. cbn [fst snd] in *. apply min_over in O as [_ O]. auto.
Qed.

Theorem fits_from_ok : forall steps thr n p m thr', fits_from steps thr n p m = true -> thr <= thr' -> grammar_fits thr' n p m = true.
Proof.
  induction steps as [|steps IH]; intros thr n p m thr' H L; [discriminate|]. cbn [fits_from] in H. destruct p; try discriminate H.
  pose proof (border_same thr thr' (S (count_open defs)) defs L) as S_. destruct (border thr (S (count_open defs)) defs) as [d k]. cbn [fst snd] in S_.
  apply andb_prop in H as [H B]. apply andb_prop in H as [F P].
  assert (G : over k thr' -> grammar_fits thr' n (PGrammar defs start) m = true).
  { intro O. rewrite <- F. cbn [grammar_fits]. cbv zeta. unfold inline_all, inlined_fits. rewrite (S_ O).
    destruct (used_names d) as [|u us]; [reflexivity|]. rewrite (pieces_plain thr' thr); [reflexivity|exact P]. }
  destruct k as [k|]; [|apply G; exact I]. destruct (le_lt_dec thr' k) as [K|K]; [apply G; exact K|]. eapply IH; [exact B|lia].
Qed.
Lemma text_fits_from : forall steps n s thr, text_fits_any steps n s = true -> text_fits thr n s = true.
Proof.
  intros steps n s thr H. unfold text_fits_any, text_fits in *. destruct (read s) as [| |t rest]; try discriminate H. destruct t as [e|l]; try discriminate H.
  rewrite forallb_forall in *. intros capg Hc. eapply fits_from_ok; [apply H; exact Hc|lia].
Qed.
