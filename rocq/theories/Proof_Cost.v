(** A grammar whose memoized patterns are parsed again and again. *)
From Coq Require Import ZArith.
From Verif Require Import Base Model_Charset Model_Isa Model_Capture Model_Input Spec_Input Proof_Input Model_Code Model_VM Model_Pattern Proof_Machine Model_Interval Model_Table Model_Share Spec_Peg Spec_Run Spec_Memo Spec_Cost.
Local Open Scope nat_scope.

(** T <- '(' {{T}}* 'x' / '(' {{T}}* 'y' *)
Definition again_part (id : Z) (b : byte) : pattern := PSeq (PLit [x28]) (PSeq (PStar (PMemo (PNonTerm "T" None) id)) (PLit [b])).
Definition again : pattern := PGrammar [("T"%string, PAlt (again_part 1 x78) (again_part 2 x79))] "T"%string.
Definition again_code : code :=
  match compile 100 50 again (CState 0 2) with COk c _ => match encode c with Some k => k | None => Code [] [] [] [] end | _ => Code [] [] [] [] end.

Lemma D0 : decode again_code 0 = Some (ICall 8). Proof. vm_compute. reflexivity. Qed.
Lemma D8 : decode again_code 8 = Some (ITestChar x28 50). Proof. vm_compute. reflexivity. Qed.
Lemma D14 : decode again_code 14 = Some (IMemoTreeOpen 34 3). Proof. vm_compute. reflexivity. Qed.
Lemma D20 : decode again_code 20 = Some (IChoice 40). Proof. vm_compute. reflexivity. Qed.
Lemma D24 : decode again_code 24 = Some (ICall 8). Proof. vm_compute. reflexivity. Qed.
Lemma D40 : decode again_code 40 = Some (IMemoTreeClose 3). Proof. vm_compute. reflexivity. Qed.
Lemma D44 : decode again_code 44 = Some (IChar x78). Proof. vm_compute. reflexivity. Qed.
Lemma D50 : decode again_code 50 = Some (IChar x28). Proof. vm_compute. reflexivity. Qed.
Lemma D52 : decode again_code 52 = Some (IMemoTreeOpen 72 4). Proof. vm_compute. reflexivity. Qed.
Lemma D58 : decode again_code 58 = Some (IChoice 78). Proof. vm_compute. reflexivity. Qed.
Lemma D62 : decode again_code 62 = Some (ICall 8). Proof. vm_compute. reflexivity. Qed.
Lemma D78 : decode again_code 78 = Some (IMemoTreeClose 4). Proof. vm_compute. reflexivity. Qed.
Lemma D82 : decode again_code 82 = Some (IChar x79). Proof. vm_compute. reflexivity. Qed.

Section Run.
Variable bufsz : nat.
Hypothesis Hbuf : 0 < bufsz.
Variable threshold : Z.
Variable CS : Type.
Variable check : nat -> CS -> list byte -> list byte -> nat -> Z -> Z -> CS * option nat.
Variable n : nat.
Local Notation s := (repeat x28 n).
Local Notation ops := (tree_table threshold).
Local Notation step := (vm_step bufsz ops check None again_code).
Local Notation fails stk st := (do_fail bufsz ops None stk st).
Local Notation srcok := (srcok bufsz s).
Local Notation srcok0 := (srcok0 bufsz s).
Implicit Types st : mstate ttable CS.

(** at least [k] instructions follow *)
Definition lasts (k : nat) st : Prop := forall f, f < k -> run step f st = None.
Definition lasts_r (k : nat) (r : step_res ttable CS) : Prop := match r with Next st => lasts k st | _ => k = 0 end.
Lemma lasts_step : forall k st, lasts_r k (step st) -> lasts (S k) st.
Proof.
  intros k st H [|f] L; [reflexivity|]. cbn [run]. unfold lasts_r in H. destruct (step st); [|lia|lia]. apply H. lia.
Qed.
Lemma lasts_less : forall k k' st, k' <= k -> lasts k st -> lasts k' st.
Proof. intros k k' st L H f Hf. apply H. lia. Qed.

Lemma text_at : forall i, i < n -> nth_error s i = Some x28.
Proof. clear. induction n as [|m IH]; intros [|i] H; try lia; cbn [repeat nth_error]; [reflexivity|]. apply IH. lia. Qed.
Lemma text_end : forall i, n <= i -> nth_error s i = None.
Proof. intros i H. apply nth_error_None. rewrite repeat_length. exact H. Qed.
Lemma nothing : forall id i, tt_get tt_new id i = (None, tt_new).
Proof. reflexivity. Qed.

(** a byte that is not there *)
Lemma char_no : forall k b K ip src stk base e cs rng i F, decode again_code ip = Some (IChar b) -> b <> x28 -> srcok src i F ->
  (forall src' i' F' ip' stk0, srcok0 src' i' F' -> lasts_r K (fails stk (MS ip' src' stk0 base tt_new e cs rng))) -> k = S K ->
  lasts k (MS ip src stk base tt_new e cs rng).
Proof.
  intros k b K ip src stk base e cs rng i F D Hb Hs H ->. apply lasts_step. unfold vm_step. cbn [m_ip]. rewrite D. cbn [exec_d].
  destruct (srcok_peek bufsz Hbuf s src i F Hs) as [P1 P2]. unfold peek. cbn [m_src]. destruct (i_peek src) as [b' src'] eqn:Ep. cbn [fst snd] in P1, P2.
  unfold fail. cbn -[do_fail]. destruct (Nat.lt_ge_cases i n) as [L|L].
  - rewrite text_at in P1 by exact L. subst b'. rewrite (proj2 (byte_eqb_neq b x28) Hb). eapply H. apply srcok_0. exact P2.
  - rewrite text_end in P1 by exact L. subst b'. eapply H. apply srcok_0. exact P2.
Qed.

(** one of the two repetitions, at [j], where T does not match but takes [c] instructions to find out *)
Lemma star_no : forall c j, j <= n ->
  (forall K src stk base e cs rng F, ntop stk -> srcok src j F ->
    (forall src' i' F' ip' stk0, srcok0 src' i' F' -> lasts_r K (fails stk (MS ip' src' stk0 base tt_new e cs rng))) ->
    lasts (c + K) (MS 8 src stk base tt_new e cs rng)) ->
  forall o a1 l a2 a3 a4 id b, decode again_code o = Some (IMemoTreeOpen l id) -> o + sz (IMemoTreeOpen l id) = a1 ->
  decode again_code a1 = Some (IChoice a3) -> a1 + sz (IChoice a3) = a2 -> decode again_code a2 = Some (ICall 8) ->
  decode again_code a3 = Some (IMemoTreeClose id) -> a3 + sz (IMemoTreeClose id) = a4 -> decode again_code a4 = Some (IChar b) -> b <> x28 ->
  forall K src stk base e cs rng F, ntop stk -> srcok src j F ->
    (forall src' i' F' ip' stk0, srcok0 src' i' F' -> lasts_r K (fails stk (MS ip' src' stk0 base tt_new e cs rng))) ->
    lasts (c + K) (MS o src stk base tt_new e cs rng).
Proof.
  intros c j Hj IH o a1 l a2 a3 a4 id b Do Eo D1 E1 D2 D3 E3 D4 Hb K src stk base e cs rng F Hn Hs H.
  pose proof (srcok_pos bufsz s src j F Hs) as Hp.
  apply (lasts_less (S (S (S (c + (S (S K))))))); [lia|].
  apply lasts_step. unfold vm_step. cbn [m_ip]. rewrite Do. cbn [exec_d m_tbl t_get tree_table]. rewrite nothing, Eo.
  unfold push, mpos. unfold set_ip, set_stk, set_tbl, set_src. cbn [lasts_r m_src m_stk m_base m_tbl m_errs m_cs m_range m_ip]. rewrite Hp.
  apply lasts_step. unfold vm_step. cbn [m_ip]. rewrite D1. cbn [exec_d]. rewrite E1.
  unfold push, mpos. unfold set_ip, set_stk, set_tbl, set_src. cbn [lasts_r m_src m_stk m_base m_tbl m_errs m_cs m_range m_ip]. rewrite Hp.
  apply lasts_step. unfold vm_step. cbn [m_ip]. rewrite D2. cbn [exec_d].
  unfold push. unfold set_ip, set_stk, set_tbl, set_src. cbn [lasts_r m_src m_stk m_base m_tbl m_errs m_cs m_range m_ip].
  eapply IH; [exact Logic.I|exact Hs|]. intros src1 i1 F1 ip1 stk1 Hs1.
  change (lasts (S (S K)) (MS a3 (snd (i_seek bufsz src1 j)) (SE (KTree id j 0) [] :: stk) base tt_new e cs rng)).
  assert (Hs2 : srcok (snd (i_seek bufsz src1 j)) j F1) by (eapply srcok_seek0; [exact Hbuf|exact Hs1|rewrite repeat_length; exact Hj]).
  apply lasts_step. unfold vm_step. cbn [m_ip]. rewrite D3. cbn [exec_d m_stk List.length]. rewrite E3.
  assert (Ec : tree_close (S (List.length stk)) id (MS a3 (snd (i_seek bufsz src1 j)) (SE (KTree id j 0) [] :: stk) base tt_new e cs rng) =
    MS a3 (snd (i_seek bufsz src1 j)) stk base tt_new e cs rng).
  { assert (Ep : snd (pop true (MS a3 (snd (i_seek bufsz src1 j)) (SE (KTree id j 0) [] :: stk) base tt_new e cs rng)) = MS a3 (snd (i_seek bufsz src1 j)) stk base tt_new e cs rng).
    { destruct stk as [|[k0 c0] stk]; cbn; rewrite app_nil_r; reflexivity. }
    cbn [tree_close m_stk]. rewrite Z.eqb_refl, Ep. destruct stk as [|[[] c0] stk]; cbn [List.length tree_close m_stk]; try reflexivity. destruct Hn. }
  rewrite Ec. unfold set_ip, set_stk, set_tbl, set_src. cbn [lasts_r m_src m_stk m_base m_tbl m_errs m_cs m_range].
  eapply char_no; [exact D4|exact Hb|exact Hs2| |reflexivity]. exact H.
Qed.

Lemma rule_no : forall m i, i + m = n -> forall K src stk base e cs rng F, ntop stk -> srcok src i F ->
  (forall src' i' F' ip' stk0, srcok0 src' i' F' -> lasts_r K (fails stk (MS ip' src' stk0 base tt_new e cs rng))) ->
  lasts (2 ^ m + K) (MS 8 src stk base tt_new e cs rng).
Proof.
  induction m as [|m IH]; intros i Hi K src stk base e cs rng F Hn Hs H.
  - apply (lasts_less (S (S K))); [cbn; lia|]. apply lasts_step. unfold vm_step. cbn [m_ip]. rewrite D8. cbn [exec_d].
    destruct (srcok_peek bufsz Hbuf s src i F Hs) as [P1 P2]. unfold peek. cbn [m_src]. destruct (i_peek src) as [b' src'] eqn:Ep. cbn [fst snd] in P1, P2.
    rewrite text_end in P1 by lia. subst b'. change (lasts (S K) (MS 50 src' stk base tt_new e cs rng)).
    apply lasts_step. unfold vm_step. cbn [m_ip]. rewrite D50. cbn [exec_d].
    destruct (srcok_peek bufsz Hbuf s src' i _ P2) as [P3 P4]. unfold peek. cbn [m_src]. destruct (i_peek src') as [b' src2] eqn:Ep2. cbn [fst snd] in P3, P4.
    rewrite text_end in P3 by lia. subst b'. unfold fail. cbn -[do_fail]. eapply H. apply srcok_0. exact P4.
  - assert (IHS := IH (S i) ltac:(lia)). 
    apply (lasts_less (S (2 ^ m + S (2 ^ m + K)))); [cbn [Nat.pow]; lia|].
    apply lasts_step. unfold vm_step. cbn [m_ip]. rewrite D8. cbn [exec_d].
    destruct (srcok_peek bufsz Hbuf s src i F Hs) as [P1 P2]. unfold peek. cbn [m_src]. destruct (i_peek src) as [b' src'] eqn:Ep. cbn [fst snd] in P1, P2.
    rewrite text_at in P1 by lia. subst b'. rewrite byte_eqb_refl. pose proof (srcok_pos bufsz s src' i _ P2) as Hp.
    unfold push, mpos, advance1. unfold set_ip, set_stk, set_tbl, set_src. cbn [lasts_r m_src m_stk m_base m_tbl m_errs m_cs m_range m_ip]. rewrite Hp.
    pose proof (srcok_advance1 bufsz Hbuf s src' i _ P2) as A. cbv zeta in A. rewrite repeat_length in A. rewrite (proj2 (Nat.ltb_lt i n)) in A by lia. destruct A as [_ A].
    change (8 + sz (ITestChar x28 50)) with 14.
    eapply (star_no (2 ^ m) (S i) ltac:(lia) IHS 14 20 34 24 40 44 3 x78 D14 eq_refl D20 eq_refl D24 D40 eq_refl D44 ltac:(discriminate)); [exact Logic.I|exact A|].
    intros src1 i1 F1 ip1 stk1 Hs1.
    change (lasts (S (2 ^ m + K)) (MS 50 (snd (i_seek bufsz src1 i)) stk base tt_new e cs rng)).
    assert (Hs2 : srcok (snd (i_seek bufsz src1 i)) i F1) by (eapply srcok_seek0; [exact Hbuf|exact Hs1|rewrite repeat_length; lia]).
    apply lasts_step. unfold vm_step. cbn [m_ip]. rewrite D50. cbn [exec_d].
    destruct (srcok_peek bufsz Hbuf s _ i F1 Hs2) as [P3 P4]. unfold peek. cbn [m_src]. destruct (i_peek (snd (i_seek bufsz src1 i))) as [b' src2] eqn:Ep2. cbn [fst snd] in P3, P4.
    rewrite text_at in P3 by lia. subst b'. rewrite byte_eqb_refl.
    unfold advance1. unfold set_ip, set_stk, set_tbl, set_src. cbn [lasts_r m_src m_stk m_base m_tbl m_errs m_cs m_range m_ip].
    pose proof (srcok_advance1 bufsz Hbuf s src2 i _ P4) as A2. cbv zeta in A2. rewrite repeat_length in A2. rewrite (proj2 (Nat.ltb_lt i n)) in A2 by lia. destruct A2 as [_ A2].
    change (50 + sz (IChar x28)) with 52.
    eapply (star_no (2 ^ m) (S i) ltac:(lia) IHS 52 58 72 62 78 82 4 x79 D52 eq_refl D58 eq_refl D62 D78 eq_refl D82 ltac:(discriminate)); [exact Hn|exact A2|]. exact H.
Qed.
End Run.

Lemma again_lasts : forall bufsz threshold n, 0 < bufsz -> takes_at_least bufsz threshold again_code (repeat x28 n) (2 ^ n).
Proof.
  intros bufsz threshold n Hb CS check cs. change (lasts bufsz threshold CS check (2 ^ n) (init_state bufsz (tree_table threshold) None (repeat x28 n) tt_new cs)).
  apply (lasts_less bufsz Hb _ _ _ (S (2 ^ n + 0))); [lia|]. apply (lasts_step bufsz Hb). unfold vm_step. cbn [init_state m_ip]. rewrite D0. cbn [exec_d].
  unfold push. unfold set_ip, set_stk, set_tbl, set_src. cbn [lasts_r m_src m_stk m_base m_tbl m_errs m_cs m_range m_ip].
  eapply (rule_no bufsz Hb threshold CS check n n 0 eq_refl); [exact Logic.I| |].
  - split; [apply inv_new; exact Hb|]. split; [apply abs_new|lia].
  - intros. reflexivity.
Qed.
