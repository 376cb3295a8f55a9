(** On a clean text, the memoized pattern of grammars/json_memo.peg looks at no more than one byte after the part that it matches. *)
From Coq Require Import ZArith String.
From Verif Require Import Base Model_Charset Model_Isa Model_Capture Model_Pattern Model_Re Model_Grammars Spec_Peg Spec_Re Spec_Grammars Spec_Memo Spec_Json Spec_Rounds Proof_Charset Proof_Eval Proof_Json Proof_Extent.
Local Open Scope nat_scope.
Arguments Nat.max : simpl never.

Definition ids (d : list (string * pattern)) : list Z := map (fun '(_, b) => match b with PCap _ id => id | _ => 0%Z end) d.
Lemma rule_of : forall capg x b, assoc (rules json_memo_peg false) x = Some b ->
  assoc (rules json_memo_peg capg) x = Some b \/ exists id, assoc (rules json_memo_peg capg) x = Some (PCap b id).
Proof.
  intros [|] x b H; [right|left; exact H].
  assert (E : rules json_memo_peg true = map (fun '((k, b), id) => (k, PCap b id)) (List.combine (rules json_memo_peg false) (ids (rules json_memo_peg true)))) by (vm_compute; reflexivity).
  assert (L : List.length (rules json_memo_peg false) = List.length (ids (rules json_memo_peg true))) by (vm_compute; reflexivity).
  rewrite E. clear E. revert L H. generalize (ids (rules json_memo_peg true)) as l. generalize (rules json_memo_peg false) as d.
  induction d as [|[k v] d IH]; intros [|id l] L H; try discriminate. cbn [assoc List.combine map] in *. destruct (String.eqb k x); [injection H as ->; eauto|]. apply IH; [|exact H]. injection L. auto.
Qed.

Section Text.
Variable s : list byte.
Variable CS : Type.
Variable check : nat -> CS -> list byte -> list byte -> nat -> Z -> Z -> CS * option nat.
Variable capg : bool.
Notation D := (rules json_memo_peg capg).
Notation looks := (Proof_Extent.looks s CS check D).
Notation nt x := (PNonTerm x%string None).
Notation c := (nth_error s).

(* ---------- runs of bytes ---------- *)
Definition spans (f : byte -> bool) (i j : nat) : Prop :=
  i <= j /\ (forall k, i <= k < j -> exists b, c k = Some b /\ f b = true) /\ (forall b, c j = Some b -> f b = false).
Lemma spans_one : forall f i j j', spans f i j -> spans f i j' -> j = j'.
Proof.
  intros f i j j' (A & B & C) (A' & B' & C'). destruct (lt_eq_lt_dec j j') as [[H|H]|H]; [|exact H|]; exfalso.
  - destruct (B' j ltac:(lia)) as (b & E1 & E2). rewrite (C b E1) in E2. discriminate.
  - destruct (B j' ltac:(lia)) as (b & E1 & E2). rewrite (C' b E1) in E2. discriminate.
Qed.
Lemma spans_here : forall f i, (forall b, c i = Some b -> f b = false) -> spans f i i.
Proof. intros f i H. split; [lia|]. split; [intros; lia|exact H]. Qed.
Lemma spans_drop : forall f i j, spans f i j -> drop_while f (skipn i s) = skipn j s.
Proof.
  intros f i j (A & B & C). remember (j - i) as d eqn:Ed. revert i A B Ed. induction d as [|d IH]; intros i A B Ed.
  - assert (i = j) by lia. subst i. rewrite (skipn_nth_error s j). destruct (c j) as [b|] eqn:E; [|reflexivity]. cbn [drop_while]. rewrite (C b eq_refl). reflexivity.
  - rewrite (skipn_nth_error s i). destruct (B i ltac:(lia)) as (b & E1 & E2). rewrite E1. cbn [drop_while]. rewrite E2. apply IH; [lia| |lia]. intros k Hk. apply B. lia.
Qed.
Lemma l_span : forall N set f i (Q : option nat -> nat -> Prop), (forall b, cs_has set b = f b) -> (forall j, spans f i j -> Q (Some j) (S j)) -> looks N (PStar (PClass set)) i Q.
Proof.
  intros N set f i Q Hf H. apply (l_star _ _ _ _ (fun j y => y <= S j /\ i <= j /\ forall k, i <= k < j -> exists b, c k = Some b /\ f b = true)); [split; [lia|split; [lia|intros; lia]]|].
  intros j y (A & B & C). eapply l_class; [exact Hf| |].
  - intros b E1 E2. split; [lia|]. split; [lia|]. intros k Hk. destruct (Nat.eq_dec k j) as [->|]; [eauto|apply C; lia].
  - intro Hn. replace (Nat.max y (S j)) with (S j) by lia. apply H. split; [exact B|]. split; [exact C|exact Hn].
Qed.
Lemma starts_at : forall f i, starts f (skipn i s) = match c i with Some b => f b | None => false end.
Proof. intros f i. rewrite (skipn_nth_error s i). destruct (c i); reflexivity. Qed.
Lemma drop_at : forall f i, drop_one f (skipn i s) = match c i with Some b => if f b then skipn (S i) s else skipn i s | None => [] end.
Proof. intros f i. rewrite (skipn_nth_error s i). destruct (c i); reflexivity. Qed.

(* ---------- the rules ---------- *)
Lemma n_rule : forall x b N i Q, assoc (rules json_memo_peg false) x = Some b -> looks N b i Q -> looks N (PNonTerm x None) i Q.
Proof. intros x b N i Q H HL. destruct (rule_of capg x b H) as [E|(id & E)]; (eapply l_rule; [exact E|]); [exact HL|apply l_cap; exact HL]. Qed.
Ltac rule := eapply n_rule; [vm_compute; reflexivity|].
Ltac bytes := let b := fresh in intro b; destruct b; vm_compute; reflexivity.
Lemma n_ws : forall N i (Q : option nat -> nat -> Prop), (forall j, spans peg_blank i j -> Q (Some j) (S j)) -> looks N (nt "S_") i Q.
Proof. intros N i Q H. rule; (apply (l_span _ _ peg_blank); [bytes|exact H]). Qed.
Lemma n_uni : forall N i, looks N (nt "UnicodeEscape") i (fun o x => match o with Some j => i < j /\ x <= j | None => True end).
Proof.
  intros N i. rule; repeat apply l_seq; (apply l_chr; [intros x _ Hx|intros; exact I]); do 4 (eapply l_class; [intro; reflexivity|intros ? _ _|intros _; exact I]); lia.
Qed.
Lemma n_esc : forall N i, looks N (nt "Escape") i (fun o x => match o with Some j => i < j /\ x <= S j | None => x <= S i \/ c i = Some x5c end).
Proof.
  intros N i. rule; apply l_seq; (apply l_chr; [intros x Hc Hx|intros x _ Hx; left; exact Hx]); apply l_alt; (eapply l_class; [intro; reflexivity|intros; lia|]); intros _; (eapply l_use; [apply n_uni|]); intros [j|] y Hy; try lia; right; exact Hc.
Qed.
Lemma n_body : forall N i, looks N (nt "StringBody") i (fun o x => match o with Some j => i <= j /\ (x <= S j \/ c j = Some x5c) | None => True end).
Proof.
  assert (PL : forall N set i, (forall b, cs_has set b = bad b) -> looks N (PSeq (PNot (PClass set)) (PDot x01)) i (fun o x => x <= S i /\ match o with Some j => j = S i /\ c i <> Some x5c | None => True end)).
  { intros N set i Hs. apply l_seq, l_not. eapply l_class; [exact Hs|intros b _ _; split; [lia|exact I]|]. intro Hn. apply l_dot.
    - intro L. split; [lia|]. split; [reflexivity|]. intro E. apply Hn in E. discriminate.
    - intro. split; [lia|exact I]. }
  assert (GR : forall N set i, (forall b, cs_has set b = bad b) -> looks N (PSeq (PPlus (PSeq (PNot (PClass set)) (PDot x01))) (PStar (nt "Escape"))) i
    (fun o x => match o with Some j => i < j /\ c i <> Some x5c /\ (x <= S j \/ c j = Some x5c) | None => x <= S i end)).
  { intros N set i Hs. apply l_seq. intros n w r w' x L E. rewrite eval_plus in E. revert n w r w' x L E. apply l_seq.
    eapply l_use; [apply PL; exact Hs|]. intros [j|] x [Hx Hj]; [|exact Hx]. destruct Hj as [-> Hc].
    apply (l_star _ _ _ _ (fun j y => i < j /\ y <= S j)); [lia|]. intros j y [Hj Hy]. eapply l_use; [apply PL; exact Hs|]. intros [k|] z [Hz Hk]; [lia|].
    apply (l_star _ _ _ _ (fun k v => j <= k /\ v <= S k)); [lia|]. intros k v [Hk' Hv]. eapply l_use; [apply n_esc|]. intros [m|] u Hu; [lia|]. split; [lia|]. split; [exact Hc|]. destruct Hu as [Hu|Hu]; [left; lia|right; exact Hu]. }
  intros N i. rule; apply l_seq, l_opt; (eapply l_use; [apply n_esc|]); intros o x Hx.
  all: assert (HX : exists j0, i <= j0 /\ (x <= S j0 \/ c j0 = Some x5c) /\ o = (if o then Some j0 else None) /\ (o = None -> j0 = i)) by (destruct o as [j|]; [exists j|exists i]; repeat split; try lia; try exact Hx; discriminate).
  all: destruct HX as (j0 & A & B & Eo & En); destruct o as [j|]; [injection Eo as ->|specialize (En eq_refl); subst j0].
  all: match goal with |- Proof_Extent.looks _ _ _ _ _ _ ?k _ => apply (l_star _ _ _ _ (fun j y => k <= j /\ (Nat.max x y <= S j \/ c j = Some x5c))); [split; [lia|rewrite Nat.max_0_r; exact B]|] end.
  all: intros j y [Hj Hy]; (eapply l_use; [apply GR; bytes|]); intros [k|] z Hz; [split; [lia|]; destruct Hz as (Hz1 & Hz2 & Hz3); destruct Hy as [Hy|Hy]; [|contradiction]; destruct Hz3; [left; lia|right; assumption]|split; [lia|]; destruct Hy as [Hy|Hy]; [left; lia|right; exact Hy]].
Qed.
Lemma n_str : forall N i, looks N (nt "String") i (fun o x => exists k, spans peg_blank i k /\ match o with Some j => c k = Some x22 /\ k < j /\ x <= S j | None => x <= S k \/ c k = Some x22 end).
Proof.
  intros N i. rule. apply l_seq, l_seq, l_seq, l_seq. apply n_ws. intros k Hk. apply l_chr; [intros x Hc Hx|intros x Hc Hx; exists k; split; [exact Hk|left; lia]].
  eapply l_use; [apply n_body|]. intros [j|] y Hy; [|exists k; split; [exact Hk|right; exact Hc]]. apply l_chr; [intros z Hcj Hz|intros; exists k; split; [exact Hk|right; exact Hc]].
  apply n_ws. intros m Hm. exists k. split; [exact Hk|]. split; [exact Hc|]. destruct Hm as (Hm & _). destruct Hy as [Hy [Hy'|Hy']]; [|rewrite Hy' in Hcj; discriminate]. lia.
Qed.

(* ---------- numbers ---------- *)
Definition at_digit (i : nat) : bool := match c i with Some b => is_digit b | None => false end.
Lemma n_digits : forall N set i, (forall b, cs_has set b = is_digit b) -> looks N (PPlus (PClass set)) i
  (fun o x => match o with Some j => spans is_digit i j /\ i < j /\ x <= S j | None => x <= S i /\ at_digit i = false end).
Proof.
  intros N set i Hs n w r w' x L E. rewrite eval_plus in E. revert n w r w' x L E. apply l_seq. eapply l_class; [exact Hs| |].
  - intros b E1 E2. eapply l_span; [exact Hs|]. intros j (A & B & C). split; [|lia]. split; [lia|]. split; [|exact C]. intros k Hk. destruct (Nat.eq_dec k i) as [->|]; [eauto|apply B; lia].
  - intro Hn. split; [lia|]. unfold at_digit. destruct (c i) as [b|]; [apply Hn; reflexivity|reflexivity].
Qed.
Lemma n_fract : forall N i, looks N (nt "FractPart") i (fun o x => match o with Some j => c i = Some x2e /\ spans is_digit (S i) j /\ x <= S j | None => (c i <> Some x2e /\ x <= S i) \/ (c i = Some x2e /\ at_digit (S i) = false) end).
Proof.
  intros N i. rule. apply l_seq. apply l_chr; [intros x Hc Hx|intros x Hc Hx; left; auto]. eapply l_use; [apply n_digits; bytes|].
  intros [j|] y Hy; [|right; tauto]. split; [exact Hc|]. split; [tauto|lia].
Qed.
Lemma n_exp : forall N i, looks N (nt "ExpPart") i (fun o x => match o with Some j => i < j /\ x <= S j | None => x <= S i \/ exp_done (skipn i s) = false end).
Proof.
  intros N i. rule. apply l_seq, l_seq. apply (l_class _ _ _ _ _ _ (one_of [x65; x45])); [bytes|intros b Hc Hb|intros _; left; lia].
  apply l_opt. apply (l_class _ _ _ _ _ _ (one_of [x2b; x2d])); [bytes|intros b' Hc' Hb'|intros Hn]; (eapply l_use; [apply n_digits; bytes|]); intros [j|] y Hy; try lia; right; unfold exp_done; rewrite starts_at, Hc, Hb, !drop_at, Hc, drop_at; cbn [negb orb].
  - rewrite Hc', Hb', starts_at. tauto.
  - destruct Hy as [_ Hy]. unfold at_digit in Hy. destruct (c (S i)) as [b'|] eqn:E; [|reflexivity]. rewrite (Hn b' eq_refl), starts_at, E. exact Hy.
Qed.
Definition number_at (k : nat) : Prop := match drop_one (byte_eqb x2d) (skipn k s) with
  | d :: u => (if byte_eqb d x30 then fract_done u else if between 49 57 d then fract_done (drop_while is_digit u) else true) = true
  | [] => True
  end.
Lemma n_int : forall N i, looks N (nt "IntPart") i (fun o x => match o with
  | Some j => i < j /\ x <= S j /\ exists d, c i = Some d /\ (if byte_eqb d x30 then j = S i else between 49 57 d = true /\ spans is_digit (S i) j)
  | None => x <= S i end).
Proof.
  intros N i. rule. apply l_alt. apply l_chr; [intros x Hc Hx|intros x Hc Hx].
  - split; [lia|]. split; [lia|]. exists x30. split; [exact Hc|]. reflexivity.
  - apply l_seq. apply (l_class _ _ _ _ _ _ (between 49 57)); [bytes|intros d Hd Hb|intros _; lia]. apply (l_span _ _ is_digit); [bytes|]. intros j Hj. pose proof Hj as (A & _ & _). split; [lia|]. split; [lia|].
    exists d. split; [exact Hd|]. destruct (byte_eqb d x30) eqn:E; [|tauto]. apply byte_eqb_eq in E. subst d. contradiction.
Qed.
Lemma n_num : forall N k, number_at k -> looks N (nt "Number") k (fun o x => match o with Some j => k < j /\ x <= S j | None => x <= S k \/ c k = Some x2d end).
Proof.
  intros N k HK. rule. apply l_seq, l_seq, l_seq, l_opt. rule. 
  assert (G : forall x i, (i = k \/ i = S k /\ c k = Some x2d) -> (x <= S k) -> skipn i s = drop_one (byte_eqb x2d) (skipn k s) ->
    looks N (nt "IntPart") i (fun o y => match o with
      | Some j => looks N (POpt (nt "FractPart")) j (fun o z => match o with
         | Some j => looks N (POpt (nt "ExpPart")) j (fun o u => match o with Some j => k < j /\ Nat.max (Nat.max (Nat.max x y) z) u <= S j | None => Nat.max (Nat.max (Nat.max x y) z) u <= S k \/ c k = Some x2d end)
         | None => Nat.max (Nat.max x y) z <= S k \/ c k = Some x2d end)
      | None => Nat.max x y <= S k \/ c k = Some x2d end)).
  { intros x i Hi Hx Ei. unfold number_at in HK. rewrite <- Ei in HK. eapply l_use; [apply n_int|]. intros [j|] y Hy; [|destruct Hi as [->|[-> Hc]]; [left; lia|right; exact Hc]].
    destruct Hy as (Hj & Hy & d & Hd & Hs). rewrite (skipn_nth_error s i), Hd in HK.
    assert (HF : fract_done (skipn j s) = true).
    { destruct (byte_eqb d x30); [subst j; exact HK|]. destruct Hs as [Hb Hs]. rewrite Hb in HK. rewrite (spans_drop _ _ _ Hs) in HK. exact HK. }
    clear HK Hs. unfold fract_done in HF. rewrite starts_at, !drop_at in HF. apply l_opt. eapply l_use; [apply n_fract|].
    assert (HE : forall j' z, j <= j' -> z <= S j' -> exp_done (skipn j' s) = true -> looks N (POpt (nt "ExpPart")) j' (fun o u => match o with Some j => k < j /\ Nat.max (Nat.max (Nat.max x y) z) u <= S j | None => Nat.max (Nat.max (Nat.max x y) z) u <= S k \/ c k = Some x2d end)).
    { intros j' z Lj Hz HE. apply l_opt. eapply l_use; [apply n_exp|]. intros [m|] u Hu; [lia|]. destruct Hu as [Hu|Hu]; [lia|]. rewrite HE in Hu. discriminate. }
    assert (B2 : byte_eqb x2e x2e = true) by apply byte_eqb_refl. intros [j'|] z Hz.
    - destruct Hz as (Hc & Hs & Hz). rewrite Hc, B2 in HF. apply andb_true_iff in HF. destruct HF as [_ HF]. rewrite (spans_drop _ _ _ Hs) in HF. apply HE; [destruct Hs; lia|exact Hz|exact HF].
    - destruct Hz as [[Hc Hz]|[Hc Hz]].
      + apply HE; [lia|exact Hz|]. destruct (c j) as [e|] eqn:Ec; [destruct (byte_eqb x2e e) eqn:Ee|]; [|exact HF|exact HF]. apply byte_eqb_eq in Ee. subst e. contradiction.
      + exfalso. rewrite Hc, B2, starts_at in HF. unfold at_digit in Hz. rewrite Hz in HF. discriminate. }
  assert (B1 : byte_eqb x2d x2d = true) by apply byte_eqb_refl. apply l_chr.
  - intros x Hc Hx. apply G; [right; auto|exact Hx|]. rewrite drop_at, Hc, B1. reflexivity.
  - intros x Hc Hx. apply G; [left; auto|exact Hx|]. rewrite drop_at. destruct (c k) as [e|] eqn:Ec; [|rewrite (skipn_nth_error s k), Ec; reflexivity]. destruct (byte_eqb x2d e) eqn:Ee; [|reflexivity]. apply byte_eqb_eq in Ee. subst e. contradiction.
Qed.
Lemma number_done_at : forall i k, number_done (skipn i s) = true -> spans peg_blank i k -> number_at k.
Proof. intros i k H Hs. unfold number_done in H. rewrite (spans_drop _ _ _ Hs) in H. unfold number_at. destruct (drop_one _ _) as [|d u]; [exact I|exact H]. Qed.

(* ---------- values ---------- *)
Hypothesis Hclean : clean s = true.
Lemma clean_at : forall i b, c i = Some b -> one_of [x2c; x3a; x5b] b = true -> number_done (skipn (S i) s) = true.
Proof.
  intros i b. revert Hclean. clear. revert i. induction s as [|a t IH]; intros i H Hb Ho; [destruct i; discriminate|]. cbn [clean] in H. apply andb_true_iff in H. destruct H as [H1 H2].
  destruct i as [|i]; [|exact (IH i H2 Hb Ho)]. injection Hb as ->. rewrite Ho in H1. exact H1.
Qed.
Definition PJ (i : nat) (o : option nat) (x : nat) : Prop :=
  match o with Some j => i < j /\ x <= S j | None => exists k, spans peg_blank i k /\ (x <= S k \/ c k <> Some x5d) end.
Section Step.
Variable N : nat.
Hypothesis HJ : forall i, number_done (skipn i s) = true -> looks N (nt "JSON") i (PJ i).
Lemma n_elem : forall j, looks N (PSeq (PLit [x2c]) (nt "JSON")) j (fun o x => match o with Some j' => j < j' /\ x <= S j' | None => x <= S j \/ c j = Some x2c end).
Proof.
  intro j. apply l_seq. apply l_chr; [intros x Hc Hx|intros x Hc Hx; left; exact Hx]. eapply l_use; [apply HJ; eapply clean_at; [exact Hc|reflexivity]|]. intros [m|] y Hy; cbn [PJ] in Hy; [lia|right; exact Hc].
Qed.
Lemma n_item : forall j, looks N (PSeq (PSeq (PSeq (PLit [x2c]) (nt "String")) (PLit [x3a])) (nt "JSON")) j (fun o x => match o with Some j' => j < j' /\ x <= S j' | None => x <= S j \/ c j = Some x2c end).
Proof.
  intro j. apply l_seq, l_seq, l_seq. apply l_chr; [intros x Hc Hx|intros x Hc Hx; left; exact Hx]. eapply l_use; [apply n_str|]. intros [m|] y (k & Hk & Hy); [|right; exact Hc].
  apply l_chr; [intros z Hcz Hz|intros z Hcz Hz; right; exact Hc]. eapply l_use; [apply HJ; eapply clean_at; [exact Hcz|reflexivity]|]. intros [m'|] u Hu; cbn [PJ] in Hu; [|right; exact Hc]. destruct Hk as (Hk & _). lia.
Qed.
Lemma n_obj : forall k, looks N (nt "Object") k (fun o x => match o with Some j => c k = Some x7b /\ k < j /\ x <= S j | None => x <= S k \/ c k = Some x7b end).
Proof.
  intro k. rule. apply l_seq, l_seq. apply l_chr; [intros x Hc Hx|intros x Hc Hx; left; exact Hx].
  assert (CL : forall j1 y, k < j1 -> (y <= S j1 \/ c j1 <> Some x7d) -> looks N (PLit [x7d]) j1 (fun o z => match o with Some j => c k = Some x7b /\ k < j /\ Nat.max (Nat.max x y) z <= S j | None => Nat.max (Nat.max x y) z <= S k \/ c k = Some x7b end)).
  { intros j1 y L Hy. apply l_chr; [intros z Hcz Hz|intros z Hcz Hz; right; exact Hc]. split; [exact Hc|]. split; [lia|]. destruct Hy; [lia|contradiction]. }
  apply l_alt, l_seq, l_seq, l_seq. eapply l_use; [apply n_str|].
  assert (WS : forall u, (exists m, spans peg_blank (S k) m /\ (u <= S m \/ c m = Some x22)) -> looks N (nt "S_") (S k) (fun o y => match o with Some j => looks N (PLit [x7d]) j (fun o z => match o with Some j => c k = Some x7b /\ k < j /\ Nat.max (Nat.max x (Nat.max u y)) z <= S j | None => Nat.max (Nat.max x (Nat.max u y)) z <= S k \/ c k = Some x7b end) | None => Nat.max x (Nat.max u y) <= S k \/ c k = Some x7b end)).
  { intros u (m & Hm & Hu). apply n_ws. intros j Hj. pose proof (spans_one _ _ _ _ Hm Hj). subst m. apply CL; [destruct Hj; lia|]. destruct Hu as [Hu|Hu]; [left; lia|right]. rewrite Hu. discriminate. }
  intros [j|] y (m & Hm & Hy); [|apply WS; exists m; split; [exact Hm|exact Hy]]. destruct Hy as (Hq & Hmj & Hy).
  apply l_chr; [intros z Hcz Hz|intros z Hcz Hz; apply WS; exists m; split; [exact Hm|right; exact Hq]].
  eapply l_use; [apply HJ; eapply clean_at; [exact Hcz|reflexivity]|]. intros [j2|] u Hu; [|apply WS; exists m; split; [exact Hm|right; exact Hq]]. destruct Hu as [Hu1 Hu].
  assert (LK : k < j2) by (destruct Hm; lia).
  apply (l_star _ _ _ _ (fun j3 v => j2 <= j3 /\ v <= S j3)); [lia|]. intros j3 v [Hv1 Hv].
  eapply l_use; [apply n_item|]. intros [j4|] t Ht; [lia|]. apply CL; [lia|]. destruct Ht as [Ht|Ht]; [left; lia|right]. rewrite Ht. discriminate.
Qed.
Lemma n_arr : forall k, looks N (nt "Array") k (fun o x => match o with Some j => c k = Some x5b /\ k < j /\ x <= S j | None => x <= S k \/ c k = Some x5b end).
Proof.
  intro k. rule. apply l_seq, l_seq. apply l_chr; [intros x Hc Hx|intros x Hc Hx; left; exact Hx].
  assert (CL : forall j1 y, k < j1 -> (y <= S j1 \/ c j1 <> Some x5d) -> looks N (PLit [x5d]) j1 (fun o z => match o with Some j => c k = Some x5b /\ k < j /\ Nat.max (Nat.max x y) z <= S j | None => Nat.max (Nat.max x y) z <= S k \/ c k = Some x5b end)).
  { intros j1 y L Hy. apply l_chr; [intros z Hcz Hz|intros z Hcz Hz; right; exact Hc]. split; [exact Hc|]. split; [lia|]. destruct Hy; [lia|contradiction]. }
  apply l_alt, l_seq. eapply l_use; [apply HJ; eapply clean_at; [exact Hc|reflexivity]|]. intros [j|] y Hy; cbn [PJ] in Hy.
  - destruct Hy as [Hj Hy]. apply (l_star _ _ _ _ (fun j3 v => j <= j3 /\ v <= S j3)); [lia|]. intros j3 v [Hv1 Hv]. apply l_memo. eapply l_use; [apply n_elem|].
    intros [j4|] t Ht; [lia|]. apply CL; [lia|]. destruct Ht as [Ht|Ht]; [left; lia|right]. rewrite Ht. discriminate.
  - destruct Hy as (m & Hm & Hy). apply n_ws. intros j Hj. pose proof (spans_one _ _ _ _ Hm Hj). subst m. apply CL; [destruct Hj; lia|]. destruct Hy as [Hy|Hy]; [left; lia|right; exact Hy].
Qed.
Lemma n_word : forall name b t k, assoc (rules json_memo_peg false) name = Some (PLit (b :: t)) ->
  looks N (PNonTerm name None) k (fun o x => match o with Some j => c k = Some b /\ k < j /\ x <= S j | None => x <= S k \/ c k = Some b end).
Proof. intros name b t k H. eapply n_rule; [exact H|]. apply l_lit; [intros j x A B C _|intros x [A|[A _]] _; auto]. split; [exact A|]. lia. Qed.
Lemma n_json : forall i, number_done (skipn i s) = true -> looks (S N) (nt "JSON") i (PJ i).
Proof.
  intros i Hi. destruct (rule_of capg "JSON" _ eq_refl) as [E|(id & E)]; (eapply l_nt; [exact E|]); try apply l_cap; clear E. all: apply l_seq, l_seq, n_ws; intros k Hk.
  all: assert (HW : forall j x, k < j -> x <= S j -> looks N (nt "S_") j (fun o y => PJ i o (Nat.max (Nat.max (S k) x) y)))
    by (intros j x Hj Hx; apply n_ws; intros m Hm; pose proof Hm as (L & _); pose proof Hk as (L' & _); cbn [PJ]; lia).
  all: assert (HB : forall b, c k = Some b -> peg_blank b = false) by (apply Hk).
  all: apply l_alt; (eapply l_use; [apply n_num; eapply number_done_at; eassumption|]); intros [j|] x1 H1; [apply HW; tauto|].
  all: apply l_alt; (eapply l_use; [apply n_obj|]); intros [j|] x2 H2; [apply HW; [tauto|]; destruct H1 as [H1|H1]; [lia|destruct H2 as [H2 _]; rewrite H1 in H2; discriminate]|].
  all: apply l_alt; (eapply l_use; [apply n_arr|]); intros [j|] x3 H3; [apply HW; [tauto|]; destruct H3 as (H3 & H3'' & H3'); rewrite H3 in *; destruct H1 as [H1|H1]; [|discriminate]; destruct H2 as [H2|H2]; [|discriminate]; lia|].
  all: apply l_alt; (eapply l_use; [apply n_str|]); intros o x4 (k' & Hk' & H4); (assert (k' = k) by (eapply spans_one; [exact Hk'|apply spans_here; exact HB])); subst k'; destruct o as [j|]; [apply HW; [tauto|]; destruct H4 as (H4 & H4'' & H4'); rewrite H4 in *; destruct H1 as [H1|H1]; [|discriminate]; destruct H2 as [H2|H2]; [|discriminate]; destruct H3 as [H3|H3]; [|discriminate]; lia|].
  all: apply l_alt; (eapply l_use; [eapply n_word; vm_compute; reflexivity|]); intros [j|] x5 H5; [apply HW; [tauto|]; destruct H5 as (H5 & H5'' & H5'); rewrite H5 in *; destruct H1 as [H1|H1]; [|discriminate]; destruct H2 as [H2|H2]; [|discriminate]; destruct H3 as [H3|H3]; [|discriminate]; destruct H4 as [H4|H4]; [|discriminate]; lia|].
  all: apply l_alt; (eapply l_use; [eapply n_word; vm_compute; reflexivity|]); intros [j|] x6 H6; [apply HW; [tauto|]; destruct H6 as (H6 & H6'' & H6'); rewrite H6 in *; destruct H1 as [H1|H1]; [|discriminate]; destruct H2 as [H2|H2]; [|discriminate]; destruct H3 as [H3|H3]; [|discriminate]; destruct H4 as [H4|H4]; [|discriminate]; destruct H5 as [H5|H5]; [|discriminate]; lia|].
  all: (eapply l_use; [eapply n_word; vm_compute; reflexivity|]); intros [j|] x7 H7; [apply HW; [tauto|]; destruct H7 as (H7 & H7'' & H7'); rewrite H7 in *; destruct H1 as [H1|H1]; [|discriminate]; destruct H2 as [H2|H2]; [|discriminate]; destruct H3 as [H3|H3]; [|discriminate]; destruct H4 as [H4|H4]; [|discriminate]; destruct H5 as [H5|H5]; [|discriminate]; destruct H6 as [H6|H6]; [|discriminate]; lia|].
  all: cbn [PJ]; exists k; (split; [exact Hk|]).
  all: assert (K : forall x b, x <= S k \/ c k = Some b -> byte_eqb b x5d = false -> x <= S k \/ c k <> Some x5d) by (intros x b [H|H] Hb; [left; exact H|right; rewrite H; intros [= ->]; rewrite byte_eqb_refl in Hb; discriminate]).
  all: apply K in H1; [|reflexivity]; apply K in H2; [|reflexivity]; apply K in H3; [|reflexivity]; apply K in H4; [|reflexivity]; apply K in H5; [|reflexivity]; apply K in H6; [|reflexivity]; apply K in H7; [|reflexivity].
  all: destruct H1 as [H1|]; [|right; assumption]; destruct H2 as [H2|]; [|right; assumption]; destruct H3 as [H3|]; [|right; assumption]; destruct H4 as [H4|]; [|right; assumption]; destruct H5 as [H5|]; [|right; assumption]; destruct H6 as [H6|]; [|right; assumption]; destruct H7 as [H7|]; [|right; assumption]; left; lia.
Qed.
End Step.
Lemma n_all : forall N i, number_done (skipn i s) = true -> looks N (nt "JSON") i (PJ i).
Proof. induction N as [|N IH]; intros i Hi; [apply l_zero|]. apply n_json; assumption. Qed.
Lemma elem_near : forall n i w j ts w' x, eval s check n [D] (PSeq (PLit [x2c]) (nt "JSON")) i w = (Some (RSucc j ts), w', x) -> x <= S j.
Proof. intros n i w j ts w' x E. pose proof (n_elem n (n_all n) i n w _ w' x (le_n _) E) as H. cbn [ok] in H. lia. Qed.
End Text.
