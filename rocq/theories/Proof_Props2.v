(** Forms of the main theorem used in the property files. *)
From Verif Require Import Base Model_Charset Model_Isa Model_Capture Model_Input Spec_Input Model_Code Model_VM Model_Pattern Model_Checker Spec_Peg Spec_Scope Spec_Run Spec_Props Proof_Eval Proof_Inline Proof_Frag Proof_Spec Proof_Capture Proof_Checker Proof_Main.
Local Open Scope nat_scope.

Lemma ctree_dec : forall a b : ctree, {a = b} + {a <> b}.
Proof.
  fix IH 1. intros [id st ln k] [id' st' ln' k'].
  assert (D : {k = k'} + {k <> k'}).
  { revert k k'. fix IHk 1. intros [|a k] [|b k']; [left; reflexivity|right; discriminate|right; discriminate|].
    destruct (IH a b) as [->|]; [|right; congruence]. destruct (IHk k k') as [->|]; [left; reflexivity|right; congruence]. }
  destruct (Z.eq_dec id id'), (Nat.eq_dec st st'), (Nat.eq_dec ln ln'), D; try (right; congruence). left. congruence.
Defined.
Lemma err_dec : forall a b : nat * string, {a = b} + {a <> b}.
Proof. intros [a m] [b m']. destruct (Nat.eq_dec a b), (String.string_dec m m'); try (right; congruence). left. congruence. Defined.
Lemma otrees_dec : forall a b : option (list ctree), {a = b} + {a <> b}.
Proof. intros [a|] [b|]; try (right; discriminate); [|left; reflexivity]. destruct (list_eq_dec ctree_dec a b); [left|right]; congruence. Defined.

Section Exec.
Variable bufsz : nat.
Hypothesis Hbuf : 0 < bufsz.
Variable CS : Type.
Variable check : nat -> CS -> list byte -> list byte -> nat -> Z -> Z -> CS * option nat.
Variable s : list byte.
Hypothesis Hck : check_ok check s.
Variable thr : nat.
Notation exec intrvl f code cs := (vm_exec bufsz none_table check intrvl f code s tt cs).
Notation peg := (peg s check).

Lemma exec_some : forall p code intrvl cs0 r errs cs', supported p -> compiled thr p code ->
  peg [] p 0 ([], cs0) r (errs, cs') ->
  exists f o st, exec intrvl f code cs0 = Some (ROk o st) /\ agrees intrvl r o /\ o_errs o = errs /\ m_cs st = cs'.
Proof. intros p code intrvl cs0 r errs cs' Hp (fuel & st0 & c & st1 & Hc & He) H. eapply exec_none; try eassumption. left. exact Hp. Qed.
Lemma exec_det : forall intrvl code cs0 f x g y, exec intrvl f code cs0 = Some x -> exec intrvl g code cs0 = Some y -> x = y.
Proof. intros. eapply run_det; eassumption. Qed.
(** what the machine returns is what the pattern gives *)
Lemma exec_is : forall p code intrvl cs0 r errs cs' f y, supported p -> compiled thr p code ->
  peg [] p 0 ([], cs0) r (errs, cs') -> exec intrvl f code cs0 = Some y ->
  exists o st, y = ROk o st /\ agrees intrvl r o /\ o_errs o = errs /\ m_cs st = cs'.
Proof.
  intros p code intrvl cs0 r errs cs' f y Hp Hc H Hy. destruct (exec_some p code intrvl cs0 r errs cs' Hp Hc H) as (f' & o & st & H1 & H2).
  rewrite (exec_det _ _ _ _ _ _ _ Hy H1). exists o, st. split; [reflexivity|exact H2].
Qed.
Lemma exec_forever : forall p code intrvl cs0, supported p -> compiled thr p code ->
  (forall r w', ~ peg [] p 0 ([], cs0) r w') -> forall f, exec intrvl f code cs0 = None.
Proof. intros p code intrvl cs0 Hp (fuel & st0 & c & st1 & Hc & He) H. eapply exec_none_div; try eassumption. left. exact Hp. Qed.
Lemma exec_only : forall p code intrvl cs0 f y, supported p -> compiled thr p code -> exec intrvl f code cs0 = Some y ->
  ~ ~ exists r w', peg [] p 0 ([], cs0) r w'.
Proof.
  intros p code intrvl cs0 f y Hp (fuel & st0 & c & st1 & Hc & He) H Hn. eapply exec_none_only; try eassumption; [left; exact Hp|]. intros (r & errs & cs' & o & st & _ & H2 & _). apply Hn. eauto.
Qed.
Lemma exec_safe : forall p code intrvl cs0 f, supported p -> compiled thr p code -> exec intrvl f code cs0 <> Some RCrash.
Proof. intros p code intrvl cs0 f Hp (fuel & st0 & c & st1 & Hc & He). eapply exec_none_safe; try eassumption. left. exact Hp. Qed.

(** with Any(n) *)
Lemma wide_is : forall p code intrvl cs0 r errs cs', compiled_wide thr bufsz s p code ->
  peg [] p 0 ([], cs0) r (errs, cs') ->
  (exists f y, exec intrvl f code cs0 = Some y) /\
  forall f y, exec intrvl f code cs0 = Some y -> exists o st, y = ROk o st /\ agrees intrvl r o /\ o_errs o = errs /\ m_cs st = cs'.
Proof.
  intros p code intrvl cs0 r errs cs' (fuel & st0 & c & st1 & Hc & He & Hp) H.
  destruct (exec_none bufsz CS check intrvl s thr fuel p st0 c st1 code cs0 r errs cs' Hbuf Hck (or_intror Hp) Hc He H) as (f & o & st & H1 & H2).
  split; [eauto|]. intros g y Hy. exists o, st. split; [eapply run_det; [exact Hy|exact H1]|exact H2].
Qed.
Lemma wide_forever : forall p code intrvl cs0, compiled_wide thr bufsz s p code ->
  (forall r w', ~ peg [] p 0 ([], cs0) r w') -> forall f, exec intrvl f code cs0 = None.
Proof.
  intros p code intrvl cs0 (fuel & st0 & c & st1 & Hc & He & Hp) H. eapply exec_none_div; try eassumption. right. exact Hp.
Qed.
Lemma wide_safe : forall p code intrvl cs0 f, compiled_wide thr bufsz s p code -> exec intrvl f code cs0 <> Some RCrash.
Proof. intros p code intrvl cs0 f (fuel & st0 & c & st1 & Hc & He & Hp). eapply exec_none_safe; try eassumption. right. exact Hp. Qed.


(** the outcome of one machine and the outcome of another, for a result that both have *)
Lemma exec_both : forall p q code code' cs0 r errs cs', supported p -> supported q -> compiled thr p code -> compiled thr q code' ->
  peg [] p 0 ([], cs0) r (errs, cs') -> peg [] q 0 ([], cs0) r (errs, cs') ->
  exists f o st g o' st', exec None f code cs0 = Some (ROk o st) /\ exec None g code' cs0 = Some (ROk o' st') /\ same_outcome o o' /\ m_cs st = m_cs st'.
Proof.
  intros p q code code' cs0 r errs cs' Hp Hq Hc Hd H1 H2.
  destruct (exec_some _ _ None _ _ _ _ Hp Hc H1) as (f & o & st & A1 & A2 & A3 & A4). destruct (exec_some _ _ None _ _ _ _ Hq Hd H2) as (g & o' & st' & B1 & B2 & B3 & B4).
  exists f, o, st, g, o', st'. split; [exact A1|]. split; [exact B1|]. split; [|congruence]. unfold same_outcome. destruct r; cbn [agrees] in *.
  - destruct A2, B2. split; [congruence|]. split; [congruence|]. intro. congruence.
  - destruct A2 as (A5 & A6 & c & A7 & A8), B2 as (B5 & B6 & c' & B7 & B8). split; [congruence|]. split; [congruence|]. intros _. split; [congruence|]. rewrite A7, B7. cbn. congruence.
  - destruct A2, B2. split; [congruence|]. split; [congruence|]. intro. congruence.
Qed.
Lemma exec_clip : forall p code cs0 lo hi f o st g o' st', supported p -> compiled thr p code ->
  exec None f code cs0 = Some (ROk o st) -> exec (Some (lo, hi)) g code cs0 = Some (ROk o' st') ->
  o_ok o = o_ok o' /\ o_errs o = o_errs o' /\
  (o_ok o = true -> o_pos o = o_pos o' /\ option_map flat1 (o_capt o') = option_map (fun c => flat_map (clip1 lo hi) (flat1 c)) (o_capt o)).
Proof.
  intros p code cs0 lo hi f o st g o' st' Hp Hc Hx Hy.
  assert (G : ~ ~ (o_ok o = o_ok o' /\ o_errs o = o_errs o' /\ (o_ok o = true -> o_pos o = o_pos o' /\ option_map flat1 (o_capt o') = option_map (fun c => flat_map (clip1 lo hi) (flat1 c)) (o_capt o)))).
  { intro N. apply (exec_only _ _ _ _ _ _ Hp Hc Hx). intros (r & [errs cs'] & H). apply N.
    destruct (exec_is _ _ _ _ _ _ _ _ _ Hp Hc H Hx) as (o1 & st1 & E1 & A1 & B1 & C1). injection E1 as <- <-.
    destruct (exec_is _ _ _ _ _ _ _ _ _ Hp Hc H Hy) as (o1 & st1 & E1 & A2 & B2 & C2). injection E1 as <- <-.
    destruct r; cbn [agrees] in *.
    - destruct A1, A2. split; [congruence|]. split; [congruence|]. congruence.
    - destruct A1 as (A5 & A6 & c & A7 & A8), A2 as (B5 & B6 & c' & B7 & B8). split; [congruence|]. split; [congruence|]. intros _. split; [congruence|].
      rewrite A7, B7. cbn [option_map clip] in *. congruence.
    - destruct A1, A2. split; [congruence|]. split; [congruence|]. congruence. }
  split; [|split].
  - destruct (Bool.bool_dec (o_ok o) (o_ok o')) as [E|E]; [exact E|]. destruct G. tauto.
  - destruct (list_eq_dec err_dec (o_errs o) (o_errs o')) as [E|E]; [exact E|]. destruct G. tauto.
  - intro Ho. split.
    + destruct (Nat.eq_dec (o_pos o) (o_pos o')) as [E|E]; [exact E|]. destruct G. tauto.
    + destruct (otrees_dec (option_map flat1 (o_capt o')) (option_map (fun c => flat_map (clip1 lo hi) (flat1 c)) (o_capt o))) as [E|E]; [exact E|]. destruct G. tauto.
Qed.
End Exec.

(* ---------- CapGrammar ---------- *)
Lemma cap_defs_ids : forall defs id, map fst (snd (cap_defs defs id)) = map fst defs /\
  map snd (snd (cap_defs defs id)) = map (fun k => (id + Z.of_nat k)%Z) (seq 0 (List.length defs)) /\
  map fst (fst (cap_defs defs id)) = map fst defs.
Proof.
  induction defs as [|[k v] defs IH]; intro id; [repeat split|]. cbn [cap_defs]. specialize (IH (id + 1)%Z). destruct (cap_defs defs (id + 1)) as [m ids]. cbn [fst snd map List.length seq] in *.
  destruct IH as (A & B & C). split; [congruence|]. split; [|congruence]. f_equal; [lia|]. rewrite B, <- seq_shift, map_map. apply map_ext. intro a. lia.
Qed.
Lemma cap_defs_assoc : forall defs id x v, assoc defs x = Some v -> exists n, assoc (snd (cap_defs defs id)) x = Some n /\ assoc (fst (cap_defs defs id)) x = Some (PCap v n).
Proof.
  induction defs as [|[k v'] defs IH]; intros id x v H; [discriminate|]. cbn [cap_defs assoc] in *. specialize (IH (id + 1)%Z x v). destruct (cap_defs defs (id + 1)) as [m ids]. cbn [fst snd assoc] in *.
  destruct (String.eqb k x); [|apply IH; exact H]. injection H as ->. eauto.
Qed.
Lemma cap_grammar_ids : forall start defs g ids, p_cap_grammar start defs = (g, ids) ->
  map fst ids = map fst defs /\ map snd ids = map Z.of_nat (seq 0 (List.length defs)) /\ exists defs', g = PGrammar defs' start /\ map fst defs' = map fst defs.
Proof.
  intros start defs g ids H. unfold p_cap_grammar in H. pose proof (cap_defs_ids defs 0) as D. destruct (cap_defs defs 0) as [m ids']. injection H as <- <-. cbn [fst snd] in D. destruct D as (A & B & C).
  split; [exact A|]. split; [rewrite B; apply map_ext; intro; lia|]. eauto.
Qed.
Lemma cap_grammar_captures : forall s CS check E start defs g ids x v n i w, p_cap_grammar start defs = (g, ids) -> assoc defs x = Some v -> assoc ids x = Some n ->
  exists defs', g = PGrammar defs' start /\
  forall r w', peg s (CS:=CS) check (defs' :: E) (PNonTerm x None) i w r w' <->
    exists r', peg s check (defs' :: E) v i w r' w' /\ r = match r' with RSucc j ts => RSucc j [CNode n i (j - i) ts] | r' => r' end.
Proof.
  intros s CS check E start defs g ids x v n i w H Hv Hn. unfold p_cap_grammar in H. destruct (cap_defs_assoc defs 0 x v Hv) as (n' & A & B). destruct (cap_defs defs 0) as [m ids']. injection H as <- <-. cbn [fst snd] in *.
  rewrite A in Hn. injection Hn as <-. exists m. split; [reflexivity|]. intros r w'. split.
  - intro H. inversion H; subst; clear H. match goal with A : lookup _ _ = _, B : peg _ _ _ _ _ _ _ _ |- _ => rename A into HL; rename B into Hb end. cbn [lookup] in HL. rewrite B in HL. injection HL as <- <-.
    inversion Hb; subst; [eexists; split; [eassumption|reflexivity]|]. exists r. split; [assumption|]. destruct r; try reflexivity. match goal with H : forall j ts, _ <> _ |- _ => destruct (H _ _ eq_refl) end.
  - intros (r' & H & ->). eapply peg_nonterm; [cbn [lookup]; rewrite B; reflexivity|]. destruct r'; [apply peg_cap_no; [exact H|discriminate]|apply peg_cap_ok; exact H|apply peg_cap_no; [exact H|discriminate]].
Qed.

Lemma order_spec : forall bufsz CS check s thr p q code code' (cs0 : CS),
  0 < bufsz -> check_ok check s -> reorder p q -> supported p -> supported q -> compiled thr p code -> compiled thr q code' ->
  (forall r w', peg s check [] p 0 ([], cs0) r w' ->
   exists f o st g o' st', vm_exec bufsz none_table check None f code s tt cs0 = Some (ROk o st) /\
     vm_exec bufsz none_table check None g code' s tt cs0 = Some (ROk o' st') /\ same_outcome o o' /\ m_cs st = m_cs st') /\
  ((forall r w', ~ peg s check [] p 0 ([], cs0) r w') ->
   forall f, vm_exec bufsz none_table check None f code s tt cs0 = None /\ vm_exec bufsz none_table check None f code' s tt cs0 = None).
Proof.
  intros bufsz CS check s thr p q code code' cs0 Hb Hk Hr Hp Hq Hc Hd. split.
  - intros r [errs cs'] H. apply (exec_both bufsz Hb CS check s Hk thr p q code code' cs0 r errs cs' Hp Hq Hc Hd H). eapply reorder_peg; [exact H|constructor|exact Hr].
  - intros N f. split; [exact (exec_forever bufsz Hb CS check s Hk thr p code None cs0 Hp Hc N f)|]. apply (exec_forever bufsz Hb CS check s Hk thr q code' None cs0 Hq Hd). intros r w' H. apply (N r w'). eapply reorder_peg_back; [exact H|constructor|exact Hr].
Qed.

Lemma and_exec : forall bufsz CS check s thr p code code' (cs0 : CS) r w',
  0 < bufsz -> check_ok check s -> supported p -> compiled thr (PAnd p) code -> compiled thr (PNot (PNot p)) code' ->
  peg s check [] p 0 ([], cs0) r w' ->
  exists f o st g o' st', vm_exec bufsz none_table check None f code s tt cs0 = Some (ROk o st) /\
    vm_exec bufsz none_table check None g code' s tt cs0 = Some (ROk o' st') /\
    o_ok o = o_ok o' /\ o_errs o = o_errs o' /\ m_cs st = m_cs st' /\ (o_ok o = true -> o_pos o = 0 /\ o_pos o' = 0).
Proof.
  intros bufsz CS check s thr p code code' cs0 r [errs cs'] Hb Hk Hp Hc Hd H.
  assert (HA : exists r', peg s check [] (PAnd p) 0 ([], cs0) r' (errs, cs') /\ forall j ts, r' = RSucc j ts -> j = 0).
  { destruct r as [|j ts|j].
    - exists RFail. split; [apply peg_and_no; [exact H|discriminate]|discriminate].
    - exists (RSucc 0 ts). split; [eapply peg_and_ok; exact H|congruence].
    - exists (RAbort j). split; [apply peg_and_no; [exact H|discriminate]|discriminate]. }
  destruct HA as (r' & HA & Hj). assert (HN : peg s check [] (PNot (PNot p)) 0 ([], cs0) (forget r') (errs, cs')) by (apply and_not_not; eauto).
  destruct (exec_some bufsz Hb CS check s Hk thr (PAnd p) code None cs0 _ _ _ Hp Hc HA) as (f & o & st & A1 & A2 & A3 & A4).
  destruct (exec_some bufsz Hb CS check s Hk thr (PNot (PNot p)) code' None cs0 _ _ _ Hp Hd HN) as (g & o' & st' & B1 & B2 & B3 & B4).
  exists f, o, st, g, o', st'. split; [exact A1|]. split; [exact B1|]. destruct r' as [|j ts|j]; cbn [agrees forget] in *.
  - destruct A2, B2. split; [congruence|]. split; [congruence|]. split; [congruence|]. congruence.
  - destruct A2 as (A5 & A6 & _), B2 as (B5 & B6 & _). specialize (Hj j ts eq_refl). split; [congruence|]. split; [congruence|]. split; [congruence|]. intros _. split; congruence.
  - destruct A2, B2. split; [congruence|]. split; [congruence|]. split; [congruence|]. congruence.
Qed.

(* ---------- EmptyOp ---------- *)
Lemma holds_spec : forall s i op, empty_op_holds s i op = true <-> exists bit, (bit < 6)%N /\ N.testbit (bN op) bit = true /\ assertion s i bit = true.
Proof.
  intros s i op. unfold empty_op_holds. rewrite existsb_exists. split.
  - intros (bit & H1 & H2). apply andb_prop in H2. exists bit. split; [|exact H2]. cbn [In] in H1. lia.
  - intros (bit & H1 & H2 & H3). exists bit. split; [cbn [In]; lia|]. rewrite H2, H3. reflexivity.
Qed.
Lemma repeat_any : forall s CS check E i k (w : world CS), k + i <= List.length s -> in_sequence s check E (repeat (PDot x01) i) k w (RSucc (k + i) []) w.
Proof.
  intros s CS check E. induction i as [|i IH]; intros k w H; cbn [repeat].
  - rewrite Nat.add_0_r. constructor.
  - change (@nil ctree) with (@nil ctree ++ @nil ctree). replace (k + S i) with (S k + i) by lia. eapply is_ok; [|apply IH; lia].
    replace (S k) with (k + N.to_nat (bN x01)) by (change (N.to_nat (bN x01)) with 1; lia). apply peg_dot_ok. change (N.to_nat (bN x01)) with 1. lia.
Qed.
Lemma empty_op_exec : forall bufsz CS check s thr i op code (cs0 : CS),
  0 < bufsz -> check_ok check s -> i <= List.length s ->
  compiled thr (PSeq (p_repeat (PDot x01) (Z.of_nat i)) (PEmptyOp op)) code ->
  exists f o st, vm_exec bufsz none_table check None f code s tt cs0 = Some (ROk o st) /\
    (o_ok o = true <-> exists bit, (bit < 6)%N /\ N.testbit (bN op) bit = true /\ assertion s i bit = true) /\
    (o_ok o = true -> o_pos o = i).
Proof.
  intros bufsz CS check s thr i op code cs0 Hb Hk Hi Hc.
  assert (Hr : forall n, let q := Nat.iter n (fun acc => PSeq acc (PDot x01)) (PDot x01) in well_scoped q /\ unique_defs q /\ any_one q).
  { induction n as [|n (A & B & C)]; cbv zeta; cbn [Nat.iter]; [repeat split|]. cbn. repeat split; assumption. }
  assert (Hp : supported (PSeq (p_repeat (PDot x01) (Z.of_nat i)) (PEmptyOp op))).
  { unfold p_repeat. destruct (Z.leb_spec (Z.of_nat i) 0); [repeat split|]. specialize (Hr (Z.to_nat (Z.of_nat i) - 1)). cbv zeta in Hr. destruct Hr as (A & B & C). repeat split; assumption. }
  assert (HR : peg s check [] (p_repeat (PDot x01) (Z.of_nat i)) 0 ([], cs0) (RSucc i []) ([], cs0)).
  { apply repeat_spec. rewrite Nat2Z.id. apply (repeat_any s CS check [] i 0). exact Hi. }
  destruct (empty_op_holds s i op) eqn:Eo.
  - assert (H : peg s check [] (PSeq (p_repeat (PDot x01) (Z.of_nat i)) (PEmptyOp op)) 0 ([], cs0) (RSucc i ([] ++ [])) ([], cs0)).
    { eapply peg_seq_ok; [exact HR|]. apply peg_emptyop_ok. exact Eo. }
    destruct (exec_some bufsz Hb CS check s Hk thr _ code None cs0 _ _ _ Hp Hc H) as (f & o & st & A1 & (A2 & A3 & _) & _). exists f, o, st. split; [exact A1|].
    rewrite <- holds_spec, Eo. tauto.
  - assert (H : peg s check [] (PSeq (p_repeat (PDot x01) (Z.of_nat i)) (PEmptyOp op)) 0 ([], cs0) RFail ([], cs0)).
    { eapply peg_seq_no2; [exact HR| |discriminate]. apply peg_emptyop_fail. exact Eo. }
    destruct (exec_some bufsz Hb CS check s Hk thr _ code None cs0 _ _ _ Hp Hc H) as (f & o & st & A1 & (A2 & _) & _). exists f, o, st. split; [exact A1|].
    rewrite <- holds_spec, Eo, A2. split; [tauto|discriminate].
Qed.
Lemma empty_op_spec : forall s i op,
  (N.land (empty_op_context (byte_before s i) (nth_error s i)) (bN op) =? 0)%N = false <->
  exists bit, (bit < 6)%N /\ N.testbit (bN op) bit = true /\ assertion s i bit = true.
Proof. intros s i op. rewrite empty_ctx, <- holds_spec. destruct (empty_op_holds s i op); cbn; split; congruence. Qed.
