(** The fast check for grammars is right. *)
From Coq Require Import ZArith String.
From Verif Require Import Base Model_Charset Model_Isa Model_Capture Model_Input Model_Code Model_VM Model_Pattern Model_Re Spec_Peg Spec_Scope Spec_Run Spec_Wf Spec_Re Spec_Encode Spec_Grammars.
From Verif Require Import Proof_Charset Proof_Encode Proof_Props1 Proof_Props2 Proof_Re Proof_Re2 Proof_Wf Proof_Fits.
Local Open Scope nat_scope.

(* ---------- plain ---------- *)
Lemma forallb_Forall : forall A (f : A -> bool) (P : A -> Prop) l, (forall a, f a = true -> P a) -> forallb f l = true -> Forall P l.
Proof. intros A f P l H E. rewrite forallb_forall in E. apply Forall_forall. intros a I. apply H, E, I. Qed.
Lemma char_check_ok : forall c, char_check c = true -> char_ok c.
Proof. intros [b|b|ds] H; cbn in *; auto. apply N.ltb_lt. exact H. Qed.
Lemma range_check_ok : forall r, range_check r = true -> range_ok r.
Proof. intros [a [b|]] H; unfold range_check, range_ok in *; cbn [fst snd] in *; apply andb_prop in H as [H1 H2]; split; auto using char_check_ok. Qed.
Lemma plain_check_ok : forall e, plain_check e = true -> plain e.
Proof.
  fix IH 1. intros e H. destruct e; cbn [plain_check plain] in *; auto; try discriminate.
  - induction l as [|e l IHl]; [constructor|]. apply andb_prop in H as [H1 H2]. split; [apply IH, H1|apply IHl, H2].
  - induction l as [|e l IHl]; [constructor|]. apply andb_prop in H as [H1 H2]. split; [apply IH, H1|apply IHl, H2].
  - eapply forallb_Forall; [|exact H]. exact char_check_ok.
  - apply andb_prop in H as [H1 H2]. split; [eapply forallb_Forall; [|exact H1]; exact range_check_ok|]. apply orb_prop in H2 as [->|H2]; [left; reflexivity|]. right. destruct rs; [discriminate|]. discriminate.
Qed.

(* ---------- simple patterns ---------- *)
Lemma str_mem_In : forall x l, str_mem x l = true <-> In x l.
Proof. intros x l. unfold str_mem. rewrite existsb_exists. split; [intros (y & I & E); apply String.eqb_eq in E; subst; exact I|]. intro I. exists x. split; [exact I|apply String.eqb_refl]. Qed.
Ltac both H := let H' := fresh "B" in apply andb_prop in H; destruct H as [H H'].
Lemma simple_any : forall p, simple p = true -> any_one p.
Proof. induction p; cbn [simple any_one]; intro H; try discriminate; auto; try (both H; split; auto); [destruct inl; [discriminate|exact Logic.I]|]. apply byte_eqb_eq. exact H. Qed.
Lemma simple_unique : forall p, simple p = true -> unique_defs p.
Proof. induction p; cbn [simple unique_defs]; intro H; try discriminate; auto; try (both H; split; auto); destruct inl; [discriminate|exact Logic.I]. Qed.
Lemma simple_scoped : forall p, simple p = true -> well_scoped p /\ bound_nts p = [].
Proof.
  induction p; cbn [simple well_scoped bound_nts]; intro H; try discriminate; auto;
    try (both H; destruct (IHp1 H) as [A1 A2], (IHp2 B) as [B1 B2]; rewrite A2, B2; auto). destruct inl; [discriminate|]. auto.
Qed.

(* ---------- well-formed grammars ---------- *)
Section Flat.
Variable defs : list (string * pattern).
Variable N ord : list string.
Hypothesis checked : forallb (def_check N ord (names defs)) defs = true.
Definition good (p : pattern) : Prop := simple p = true /\ loops_ok N p = true /\ incl (free_nts p) (names defs).
Lemma def_good : forall x b, assoc defs x = Some b -> good b /\ (nul N b = true -> In x N) /\ (forall y, In y (first_calls N b) -> rank ord y < rank ord x).
Proof.
  intros x b H. assert (I : In (x, b) defs).
  { clear checked. induction defs as [|[y c] d IH]; [discriminate|]. cbn in H. destruct (String.eqb y x) eqn:E; [|right; apply IH, H]. apply String.eqb_eq in E. injection H as ->. subst. left. reflexivity. }
  pose proof checked as K. rewrite forallb_forall in K. specialize (K _ I). unfold def_check in K. both K. both K. both K. both K.
  split; [split; [exact K|]; split; [assumption|]; intros y Hy; rewrite forallb_forall in B1; apply str_mem_In, B1, Hy|].
  split; [intro Hn; rewrite Hn in B0; apply str_mem_In; exact B0|]. intros y Hy. rewrite forallb_forall in B. apply Nat.ltb_lt, B, Hy.
Qed.
Lemma lookup_one : forall x b E', lookup [defs] x = Some (b, E') -> assoc defs x = Some b /\ E' = [defs].
Proof. intros x b E' H. cbn in H. destruct (assoc defs x); [|discriminate]. injection H as -> <-. auto. Qed.
Lemma nul_sound : forall E p, nullable E p -> E = [defs] -> simple p = true -> nul N p = true.
Proof.
  intros E p H. induction H; intros -> S; cbn [simple nul] in *; try discriminate; auto; try (both S; rewrite ?IHnullable, ?IHnullable1, ?IHnullable2 by auto; rewrite ?orb_true_r; reflexivity).
  apply lookup_one in H as [H ->]. destruct (def_good _ _ H) as ((G1 & _) & G2 & _). apply str_mem_In, G2, IHnullable; auto.
Qed.
Lemma first_acc : forall n p, simple p = true -> (forall y, In y (first_calls N p) -> rank ord y < n) -> Acc below ([defs], p).
Proof.
  intro n. induction n as [n IHn] using lt_wf_ind. induction p; intros S F; cbn [simple first_calls] in *; try discriminate;
    try (constructor; intros c Hc; inversion Hc; subst; fail);
    try (constructor; intros c Hc; inversion Hc; subst; auto; fail).
  - both S. constructor. intros c Hc. inversion Hc; subst; [apply IHp1; auto|apply IHp2; auto]; intros y Hy; apply F, in_app_iff; auto.
  - both S. constructor. intros c Hc. inversion Hc as [| |? ? ?|? ? ? Hn| | | | | | | | | | | | |]; subst; [apply IHp1; auto; intros y Hy; apply F, in_app_iff; auto|].
    apply IHp2; auto. intros y Hy. apply F, in_app_iff. right. rewrite (nul_sound _ _ Hn eq_refl S). exact Hy.
  - destruct inl; [discriminate|]. constructor. intros c Hc. inversion Hc; subst. match goal with L : lookup _ _ = _ |- _ => apply lookup_one in L as [L ->]; destruct (def_good _ _ L) as ((G1 & _) & _ & G3) end.
    exact (IHn (rank ord name) (F name (or_introl eq_refl)) b G1 G3).
Qed.
Lemma rank_le : forall x, rank ord x <= List.length ord.
Proof. intro x. clear checked. induction ord as [|y l IH]; [cbn; lia|]. cbn [rank List.length]. destruct (String.eqb y x); lia. Qed.
Lemma good_sensible : forall p, good p -> sensible ([defs], p).
Proof.
  intros p (G1 & G2 & G3). destruct p; cbn [simple loops_ok sensible free_nts] in *; try discriminate; auto.
  - both G2. intro Hn. rewrite (nul_sound _ _ Hn eq_refl G1) in G2. discriminate.
  - both G2. intro Hn. rewrite (nul_sound _ _ Hn eq_refl G1) in G2. discriminate.
  - destruct inl; [discriminate|]. specialize (G3 name (or_introl eq_refl)). cbn [lookup]. destruct (assoc defs name) eqn:E; [discriminate|].
    exfalso. clear - G3 E. induction defs as [|[y c] d IH]; [destruct G3|]. cbn in *. destruct (String.eqb y name) eqn:Ey; [discriminate|]. destruct G3 as [<-|G3]; [rewrite String.eqb_refl in Ey; discriminate|]. exact (IH G3 E).
Qed.
Lemma good_within : forall p c, good p -> Spec_Wf.within c ([defs], p) -> exists q, c = ([defs], q) /\ good q.
Proof.
  intros p c (G1 & G2 & G3) H. inversion H as [c' d Hb|E l r]; subst.
  - inversion Hb; subst; cbn [simple loops_ok free_nts] in *; try discriminate;
      try (eexists; split; [reflexivity|]; repeat split; repeat match goal with G : _ && _ = true |- _ => both G end; auto; try (intros y Hy; apply G3; try apply in_app_iff; auto); fail).
    match goal with L : lookup _ _ = _ |- _ => apply lookup_one in L as [L ->]; destruct (def_good _ _ L) as (G & _) end. eauto.
  - cbn [simple loops_ok free_nts] in *. both G1. both G2. eexists. split; [reflexivity|]. repeat split; auto. intros y Hy. apply G3, in_app_iff. auto.
Qed.
Lemma flat_wf : forall st, In st (names defs) -> well_formed ([], PGrammar defs st).
Proof.
  intros st Hst c Hc.
  assert (A : assoc defs st <> None).
  { clear - Hst. induction defs as [|[y b] d IH]; [destruct Hst|]. cbn in *. destruct (String.eqb y st) eqn:E; [discriminate|]. destruct Hst as [<-|H]; [rewrite String.eqb_refl in E; discriminate|]. exact (IH H). }
  assert (G : c = ([], PGrammar defs st) \/ exists q, c = ([defs], q) /\ good q).
  { induction Hc as [|c c' Hc IH Hw]; [auto|]. destruct IH as [->|(q & -> & Gq)]; [|right; eapply good_within; eassumption]. right. inversion Hw as [c0 d Hb|]; subst. inversion Hb; subst.
    match goal with L : assoc _ _ = _ |- _ => destruct (def_good _ _ L) as (G & _) end. eauto. }
  assert (AG : forall q, good q -> Acc below ([defs], q)) by (intros q (G1 & _); apply (first_acc (S (List.length ord)) q G1); intros y _; pose proof (rank_le y); lia).
  destruct G as [->|(q & -> & Gq)]; [|split; [auto|apply good_sensible, Gq]]. split; [|exact A].
  constructor. intros c' Hb. inversion Hb; subst. match goal with L : assoc _ _ = _ |- _ => destruct (def_good _ _ L) as (G & _) end. auto.
Qed.
Lemma flat_parts : Forall (fun d => simple (snd d) = true) defs.
Proof. pose proof checked as K. rewrite forallb_forall in K. apply Forall_forall. intros [x b] I. specialize (K _ I). unfold def_check in K. do 4 both K. exact K. Qed.
End Flat.

Lemma distinct_NoDup : forall l, distinct l = true -> NoDup l.
Proof. induction l as [|x l IH]; intro H; constructor; cbn in H; both H; auto. intro I. apply str_mem_In in I. rewrite I in H. discriminate. Qed.
Lemma flat_check_ok : forall p, flat_check p = true -> supported p /\ well_formed ([], p).
Proof.
  intros p H. destruct p; try discriminate. cbn [flat_check] in H. both H. both H. pose proof (flat_parts _ _ _ B) as S.
  split; [|eapply flat_wf; [exact B|apply str_mem_In; exact B0]]. split; [|split].
  - cbn [well_scoped]. generalize (names defs) as nm. clear - S. intro nm. induction defs as [|[x b] d IH]; [exact Logic.I|]. inversion S as [|? ? Sb Sd]; subst. destruct (simple_scoped b Sb) as [W1 W2].
    split; [split; [exact W1|rewrite W2; intros y _ []]|]. apply IH. exact Sd.
  - cbn [unique_defs]. split; [apply distinct_NoDup; exact H|]. clear - S. induction defs as [|[x b] d IH]; [exact Logic.I|]. inversion S as [|? ? Sb Sd]; subst. split; [apply simple_unique; exact Sb|apply IH; exact Sd].
  - cbn [any_one]. clear - S. induction defs as [|[x b] d IH]; [exact Logic.I|]. inversion S as [|? ? Sb Sd]; subst. split; [apply simple_any; exact Sb|apply IH; exact Sd].
Qed.

(* ---------- encoding ---------- *)
Lemma distinct_sets : forall l, incl l (fold_right cset_add [] l).
Proof.
  induction l as [|s l IH]; [intros x []|]. cbn [fold_right]. unfold cset_add at 1. destruct (existsb (cs_eqb s) (fold_right cset_add [] l)) eqn:E.
  - apply existsb_exists in E as (t & I & E). apply cs_eqb_eq in E. subst t. intros x [<-|Hx]; auto.
  - intros x [<-|Hx]; [left; reflexivity|right; auto].
Qed.
Lemma offset_sum : forall c k, (N.of_nat (offset_of c k) <= fold_right (fun i n => N.of_nat (insn_size i) + n) 0 c)%N.
Proof.
  induction c as [|i c IH]; intros [|k]; [cbn; lia|cbn; lia|unfold offset_of; cbn [firstn map]; change (list_sum []) with 0; lia|].
  change (offset_of (i :: c) (S k)) with (insn_size i + offset_of c k). cbn [fold_right]. specialize (IH k). lia.
Qed.
Lemma fit_check_ok : forall c, fit_check c = true -> exists code, encode c = Some code.
Proof.
  intros c H. unfold fit_check in H. both H. both H. both H. apply encode_iff. rewrite forallb_forall in H. apply N.ltb_lt in B1. apply Nat.leb_le in B0.
  destruct (flat_map messages_of c) eqn:Em; [|discriminate]. destruct (flat_map checkers_of c) eqn:Ek; [|discriminate].
  split; [intros x I; specialize (H _ I); discriminate|]. split.
  { intros i id I Hid. specialize (H _ I). assert (F : forallb (fun id => (-32768 <=? id) && (id <? 32768))%Z (ids_of i) = true) by (destruct i; try exact H; discriminate).
    rewrite forallb_forall in F. specialize (F _ Hid). both F. lia. }
  split; [intros i l _ _; pose proof (offset_sum c (lbl_index c l)); lia|]. split; [eexists; split; [exact B0|apply distinct_sets]|].
  rewrite Em, Ek. split; [exists []; split; [cbn; lia|apply incl_refl]|cbn; lia].
Qed.

(* ---------- all names are defined ---------- *)
Lemma simple_calls : forall p, simple p = true -> incl (call_nts p) (free_nts p).
Proof.
  induction p; cbn [simple call_nts free_nts]; intro H; try discriminate; try (intros y Hy; exact Hy); auto;
    try (both H; intros y Hy; apply in_app_iff in Hy as [Hy|Hy]; apply in_app_iff; [left; apply IHp1; auto|right; apply IHp2; auto]).
  destruct inl; [discriminate|apply incl_refl].
Qed.
Lemma simple_defined : forall p x, simple p = true -> ~ undefined x p.
Proof. induction p; cbn [simple undefined]; intros x H; try discriminate; auto; try (both H; intros [U|U]; [exact (IHp1 x H U)|exact (IHp2 x B U)]). destruct inl; [discriminate|auto]. Qed.
Lemma flat_defined : forall p x, flat_check p = true -> ~ undefined x p.
Proof.
  intros p x H. destruct p; try discriminate. cbn [flat_check] in H. both H. both H. pose proof (flat_parts _ _ _ B) as S. cbn [undefined]. intros [[U1 U2]|U].
  - destruct U2 as [->|(k & d & I & U2)]; [apply U1, str_mem_In; exact B0|]. apply U1. rewrite forallb_forall in B. specialize (B _ I). unfold def_check in B. do 4 both B. rewrite forallb_forall in B3.
    apply str_mem_In, B3, simple_calls; [exact B|exact U2].
  - clear - S U. induction defs as [|[y b] d IH]; [exact U|]. inversion S as [|? ? Sb Sd]; subst. destruct U as [U|U]; [exact (simple_defined b x Sb U)|exact (IH Sd U)].
Qed.

(* ---------- texts ---------- *)
Theorem light_check_ok : forall s, light_check s = true ->
  forall bufsz CS check thr' code (cs0 : CS), 0 < bufsz -> check_ok check s -> compiled thr' re_grammar code ->
  exists l rest f o st, read s = Yes (TGrammar l) rest /\ vm_exec bufsz none_table check None f code s tt cs0 = Some (ROk o st) /\
    forall capg, re_compile s capg o 0 = RePattern (grammar_of capg l) (snd (denote_defs l 0)) /\
      supported (grammar_of capg l) /\ well_formed ([], grammar_of capg l) /\ forall x, ~ undefined x (grammar_of capg l).
Proof.
  intros s H bufsz CS check thr' code cs0 Hb Hk Hc. unfold light_check in H. destruct (read s) as [| |p rest] eqn:Hr; try discriminate. destruct p as [|l]; [discriminate|]. both H.
  assert (Hp : Forall (fun d => plain (snd d)) l) by (eapply forallb_Forall; [|exact H]; intros d; apply plain_check_ok).
  pose proof (re_parse s CS check false ([], cs0)) as P. rewrite Hr in P. destruct P as (ts & P & _ & _).
  destruct (exec_some bufsz Hb CS check s Hk thr' re_grammar code None cs0 _ _ _ re_supported Hc P) as (f & o & st & H1 & (H2 & H3 & c & H4 & H5) & H6 & _).
  exists l, rest, f, o, st. split; [reflexivity|]. split; [exact H1|]. intro capg.
  split; [rewrite (conv_result s CS check capg cs0 (TGrammar l) rest ts o c 0 P Hr Hp H2 H4 H5 H6); f_equal; unfold put_grammar, grammar_of, first_name, put_all; destruct l as [|[x e] l']; reflexivity|].
  rewrite forallb_forall in B. assert (I : In capg [false; true]) by (destruct capg; cbn; auto). specialize (B capg I). destruct (flat_check_ok _ B) as [S W]. split; [exact S|]. split; [exact W|]. intro x. apply flat_defined. exact B.
Qed.
Lemma compiles_ok : forall thr n p m, compiles thr n p m = true -> exists pcode, compiled thr p pcode.
Proof.
  intros thr n p m H. unfold compiles in H. destruct (compile thr n p (CState 0 m)) as [pc st'| | |] eqn:Ec; try discriminate.
  destruct (fit_check_ok _ H) as (pcode & E). exists pcode. unfold compiled. eauto 6.
Qed.
