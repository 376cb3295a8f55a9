(** In the program of a pattern an entry for a memoized pattern leaves the stack only when the pattern has
    matched or failed. *)
From Coq Require Import ZArith.
From Verif Require Import Base Model_Charset Model_Isa Model_Capture Model_Input Model_Code Model_VM Model_Pattern Model_Table Model_Share Spec_Peg Spec_Run Spec_Memo Spec_Positions Spec_Cost
  Proof_Codegen Proof_Encode Proof_Machine Proof_Emit Proof_Optimize Proof_Share Proof_Props1 Proof_Safe Proof_SafeCode Proof_SafeMain Proof_Positions Proof_Cost2.
Local Open Scope nat_scope.

(* ---------- the stack discipline on bytecode ---------- *)
Section Img.
Variable c : program.
Variable code : code.
Hypothesis He : encode c = Some code.
Variable I : nat -> astack -> Prop.
Hypothesis HI : closed c I.
Definition am (k : akind) : akind := match k with ARet r => ARet (offs c r) | ABt ip => ABt (offs c ip) | k => k end.
Definition img (a : nat) (g : astack) : Prop := exists k h, a = offs c k /\ g = map am h /\ I k h.

Lemma drop_img : forall m h, drop_trees m (map am h) = map am (drop_trees m h).
Proof. intros m. induction h as [|[] h IH]; try reflexivity. cbn [map am drop_trees]. destruct (id =? m)%Z; [exact IH|reflexivity]. Qed.
Lemma merged_img : forall g h, merged g h -> forall g0, g = map am g0 -> exists h0, h = map am h0 /\ merged g0 h0.
Proof.
  induction 1 as [g|a b g h H IH]; intros g0 E; [exists g0; split; [exact E|apply mg_refl]|].
  destruct g0 as [|x [|y g0]]; try discriminate. cbn [map] in E. injection E as E1 E2 E3.
  destruct x; try discriminate. destruct y; try discriminate. cbn [am] in E1, E2. injection E1 as ->. injection E2 as ->.
  destruct (IH (ATree id0 :: g0)) as (h0 & -> & Hm); [rewrite E3; reflexivity|]. exists h0. split; [reflexivity|]. apply mg_step. exact Hm.
Qed.
Lemma fl_img : forall h k, fl k h I -> fl (offs c k) (map am h) img.
Proof. induction h as [|[] h IH]; intros k H; cbn [fl map am] in *; auto; do 2 eexists; split; [reflexivity|split; [reflexivity|exact H]| |]; eauto. Qed.
Lemma img_in : forall k h, I k h -> img (offs c k) (map am h). Proof. intros k h H. exists k, h. auto. Qed.
Lemma exec_img : forall i k next h, exec_a (map_lbl (lbl_index c) i) k next h I -> exec_a (map_lbl (lbl_offset c) i) (offs c k) (offs c next) (map am h) img.
Proof.
  intros i k next h H.
  assert (X : forall k h x, I k h -> x = map am h -> img (offs c k) x) by (intros k0 h0 x H0 ->; apply img_in; exact H0).
  destruct i; cbn [map_lbl exec_a] in *; rewrite ?lbl_offset_index; try contradiction; try exact Logic.I;
    try (destruct H as [H| ->]; [left; exact H|right; reflexivity]);
    try (intros h0 Hm; destruct (merged_img _ _ Hm _ eq_refl) as (h1 & -> & Hm1); apply img_in; apply H; exact Hm1);
    try (rewrite drop_img; apply img_in; exact H);
    try (destruct h as [|[] h]; try contradiction; cbn [map am] in *);
    repeat match goal with H : _ /\ _ |- _ => destruct H end; repeat split;
    try (apply fl_img; assumption); try (eapply X; [eassumption|]; reflexivity).
Qed.
Lemma img_next : forall a g, img a g -> exists i, decode code a = Some i /\ exec_a i a (a + sz i) g img.
Proof.
  intros a g (k & h & -> & -> & H).
  assert (W : forall n k, n = List.length c - k -> I k h -> exists v, offs c v = offs c k /\ I v h /\
     (v = List.length c /\ h = [] \/ exists i, nth_error c v = Some i /\ is_label_or_nop i = false)).
  { clear k H. induction n as [|n IH]; intros k Hn H.
    - exists k. split; [reflexivity|]. split; [exact H|]. left. apply HI in H. unfold astep in H.
      destruct (nth_error c k) eqn:E; [apply nth_lt in E; lia|exact H].
    - destruct (nth_error c k) as [i|] eqn:Ei; [|apply nth_error_None in Ei; lia]. destruct (is_label_or_nop i) eqn:El.
      + assert (H' : I (S k) h) by (apply HI in H; unfold astep in H; rewrite Ei in H; destruct i; try discriminate; exact H).
        destruct (IH (S k) ltac:(lia) H') as (v & V1 & V2 & V3). exists v. split; [|auto].
        rewrite V1, (offs_S _ _ _ Ei). destruct i; try discriminate; cbn; lia.
      + exists k. split; [reflexivity|]. split; [exact H|]. right. eauto. }
  destruct (W _ k eq_refl H) as (v & <- & Hv & [[-> ->]|(i & V1 & V2)]).
  - exists (IEnd false). split; [apply encode_end; exact He|right; reflexivity].
  - destruct (encode_fetch _ _ He _ _ V1 V2) as [D1 D2]. exists (map_lbl (lbl_offset c) i). split; [exact D1|].
    rewrite D2, <- (offs_S _ _ _ V1). apply exec_img. apply HI in Hv. unfold astep in Hv. rewrite V1 in Hv. destruct i; try discriminate; exact Hv.
Qed.
Theorem disc : I 0 [] -> forall bufsz T (ops : table_ops T) CS check intrvl s t (cs : CS) st,
  reached (vm_step bufsz ops check intrvl code) (init_state bufsz ops intrvl s t cs) st -> img (m_ip st) (kinds T CS st).
Proof.
  intros H0 bufsz T ops CS check intrvl s t cs st H. induction H as [|st1 st2 H IH Hs].
  - exists 0, []. cbn. rewrite offs_0. auto.
  - destruct (img_next _ _ IH) as (i & Hi & Hx). unfold vm_step in Hs. rewrite Hi in Hs. pose proof (exec_in bufsz T ops CS check intrvl _ _ _ _ Hx) as R. rewrite Hs in R. exact R.
Qed.
End Img.

(* ---------- an entry stays where it is ---------- *)
Section Entry.
Variable threshold : Z.
Hypothesis Hth : (threshold <= 1)%Z.
Variable bufsz : nat.
Variable CS : Type.
Variable check : nat -> CS -> list byte -> list byte -> nat -> Z -> Z -> CS * option nat.
Local Notation ops := (tree_table threshold).
Implicit Types st : mstate ttable CS.
Variable id : Z.
Variable pos : nat.
Variable L : nat.
Definition has (stk : list sentry) : Prop := exists a c b, stk = a ++ SE (KMemo id pos) c :: b /\ List.length b = L.
Lemma has_cons : forall e stk, has stk -> has (e :: stk).
Proof. intros e stk (a & c & b & -> & H). exists (e :: a), c, b. auto. Qed.
Lemma has_tl : forall e stk, has (e :: stk) -> (forall i p, s_kind e <> KMemo i p) -> has stk.
Proof. intros e stk (a & c & b & E & H) Hn. destruct a as [|x a]; injection E as -> ->; [destruct (Hn id pos eq_refl)|]. exists a, c, b. auto. Qed.
Lemma has_len : forall stk, has stk -> L < List.length stk.
Proof. intros stk (a & c & b & -> & <-). rewrite app_length. cbn. lia. Qed.
(** only captures of the entry on top may change *)
Lemma has_top : forall k c c' stk, has (SE k c :: stk) -> has (SE k c' :: stk).
Proof. intros k c c' stk (a & c0 & b & E & H). destruct a as [|x a]; injection E; [intros -> _ ->; exists [], c', b; auto|intros -> _; exists (SE k c' :: a), c0, b; auto]. Qed.
Lemma has_kind : forall k k' c c' stk, has (SE k c :: stk) -> (forall i p, k <> KMemo i p) -> has (SE k' c' :: stk).
Proof. intros k k' c c' stk H Hn. apply has_cons. eapply has_tl; [exact H|exact Hn]. Qed.
Lemma has_add : forall cs st, has (m_stk st) -> has (m_stk (Model_VM.add cs st)).
Proof.
  intros cs st H. unfold Model_VM.add. destruct (m_stk st) as [|[k c] stk]; [exact H|]. cbn [add_capt m_stk set_stk]. eapply has_top. exact H.
Qed.
Lemma has_pop : forall b st, has (m_stk st) -> match kinds ttable CS st with AMemo :: _ => False | _ => True end -> has (m_stk (snd (pop b st))).
Proof.
  intros b st H Hk. unfold pop, kinds in *. destruct (m_stk st) as [|[k c] stk] eqn:E; [rewrite <- E in H; exact H|]. cbn [map s_kind snd] in *.
  assert (H1 : has stk) by (eapply has_tl; [exact H|]; intros i p; cbn [s_kind]; intros ->; exact Hk).
  destruct b; [apply has_add|]; exact H1.
Qed.
Lemma has_span : forall f s st, has (m_stk st) -> has (m_stk (span_loop bufsz f s st)).
Proof.
  induction f as [|f IH]; intros s st H; cbn [span_loop]; unfold peek; destruct (i_peek (m_src st)) as [[b|] s0]; try exact H.
  destruct (cs_has s b); [|exact H]. apply IH. exact H.
Qed.
Lemma has_close : forall n m st, has (m_stk st) -> has (m_stk (tree_close n m st)).
Proof.
  induction n as [|n IH]; intros m st H; cbn [tree_close]; [exact H|].
  destruct (m_stk st) as [|[k c] stk] eqn:E; [rewrite <- E in H; exact H|]. rewrite <- E in H. destruct k; try exact H. destruct (id0 =? m)%Z; [|exact H].
  apply IH. apply has_pop; [exact H|]. unfold kinds. rewrite E. exact Logic.I.
Qed.
Lemma has_pops : forall n st, has (m_stk st) -> forallb is_tree (firstn n (kinds ttable CS st)) = true -> has (m_stk (tree_pops n st)).
Proof.
  induction n as [|n IH]; intros st H Hk; cbn [tree_pops]; [exact H|].
  assert (K : match kinds ttable CS st with [] => True | k :: g => is_tree k = true /\ forallb is_tree (firstn n g) = true end).
  { destruct (kinds ttable CS st); [exact Logic.I|]. cbn [firstn forallb] in Hk. apply andb_true_iff in Hk. exact Hk. }
  apply IH.
  - apply has_pop; [exact H|]. destruct (kinds ttable CS st) as [|[] g]; try exact Logic.I. destruct K as [K _]. discriminate.
  - rewrite kinds_pop. destruct (kinds ttable CS st); [destruct n; reflexivity|]. apply K.
Qed.
Lemma has_loop : forall f seen accum st, forallb is_tree (firstn seen (kinds ttable CS st)) = true -> has (m_stk st) -> has (m_stk (tree_loop ops None f seen accum st)).
Proof.
  induction f as [|f IH]; intros seen accum st H Hs; [exact Hs|]. cbn [tree_loop].
  destruct (nth_error (m_stk st) seen) as [[k1 c1]|] eqn:E1; [|exact Hs]. destruct k1; try exact Hs.
  destruct (nth_error (m_stk st) (S seen)) as [[k2 c2]|] eqn:E2; [|exact Hs]. destruct k2; try exact Hs.
  apply kinds_nth in E1. apply kinds_nth in E2. cbn [s_kind kind_of] in *.
  assert (H1 : forallb is_tree (firstn (S seen) (kinds ttable CS st)) = true) by (eapply forallb_firstn; [exact H|exact E1|reflexivity]).
  destruct (_ <? _); [apply IH; assumption|].
  replace (S seen - 1) with seen by lia.
  assert (P1 : has (m_stk (tree_pops seen st))) by (apply has_pops; assumption).
  assert (P2 : has (m_stk (snd (pop false (tree_pops seen st))))).
  { apply has_pop; [exact P1|]. rewrite kinds_pops. pose proof (nth_skipn (kinds ttable CS st) seen 0) as N. rewrite Nat.add_0_r, E1 in N.
    destruct (skipn seen (kinds ttable CS st)) as [|x g]; [exact Logic.I|]. injection N as ->. exact Logic.I. }
  destruct (pop false (tree_pops seen st)) as [ent st2]. cbn [snd] in P2.
  match goal with |- context [match m_stk ?s with _ => _ end] => set (st3 := s) end.
  assert (P3 : has (m_stk st3)).
  { unfold st3. destruct ent as [[[] [|]]|]; try exact P2. apply has_add. exact P2. }
  clearbody st3. destruct (m_stk st3) as [|[k3 c3] rest] eqn:E3; [rewrite E3; exact P3|]. destruct k3; try (rewrite E3; exact P3).
  apply IH; [reflexivity|]. cbn [memoize m_stk set_tbl set_stk]. eapply has_kind; [exact P3|discriminate].
Qed.

Definition gone st1 : Prop := List.length (m_stk st1) <= L /\ answered (m_tbl st1) id pos.
Lemma fail_has : forall stk st st1, plain (m_tbl st) -> do_fail bufsz ops None stk st = Next st1 -> has stk -> has (m_stk st1) \/ gone st1.
Proof.
  induction stk as [|[k c] stk IH]; intros st st1 P H Hh; [discriminate|]. cbn [do_fail s_kind] in H.
  assert (T : (forall i p, k <> KMemo i p) -> has stk) by (intro Hn; eapply has_tl; [exact Hh|exact Hn]).
  destruct k as [r|ip off|id0 pos0|id0 pos0 cnt|id0 pos0|id0 flag pos0].
  1, 5, 6: (eapply IH; [exact P|exact H|apply T; discriminate]).
  - injection H as <-. left. apply T. discriminate.
  - assert (P' : plain (m_tbl (memoize ops None id0 pos0 None 0 [] st))) by (apply knows_put; [lia|exact P]).
    destruct Hh as (a & c0 & b & E & Hb). destruct a as [|x a].
    + right. injection E as -> -> -> ->. pose proof (R_fail bufsz ttable ops CS knows knows_refl knows_trans (knows_put threshold) None b (memoize ops None id pos None 0 [] st)) as K.
      pose proof (fail_len threshold bufsz CS _ _ _ H) as FL. rewrite H in K. cbn [Rres] in K. split; [lia|].
      apply (K P'). unfold memoize. cbn [m_tbl set_tbl tree_table t_put]. apply put_answered; [exact P|lia|lia|discriminate].
    + injection E as <- ->. eapply IH; [exact P'|exact H|]. exists a, c0, b. auto.
  - injection H as <-. left. apply T. discriminate.
Qed.

Lemma once_step : forall i next st st1 Q, exec_a i (m_ip st) next (kinds ttable CS st) Q -> plain (m_tbl st) -> has (m_stk st) ->
  exec_d bufsz ops check None i next st = Next st1 ->
  has (m_stk st1) \/ gone st1 \/ i = IMemoClose /\ (exists c b, m_stk st = SE (KMemo id pos) c :: b) /\ mpos st <= pos.
Proof.
  intros i next st st1 Q X P Hh H.
  assert (FA : forall st0, plain (m_tbl st0) -> has (m_stk st0) -> fail bufsz ops None st0 = Next st1 -> has (m_stk st1) \/ gone st1 \/
     i = IMemoClose /\ (exists c b, m_stk st = SE (KMemo id pos) c :: b) /\ mpos st <= pos).
  { intros st0 P0 H0 F0. destruct (fail_has _ _ _ P0 F0 H0); auto. }
  assert (GO : forall st0, has (m_stk st0) -> Next st0 = Next st1 -> has (m_stk st1) \/ gone st1 \/
     i = IMemoClose /\ (exists c b, m_stk st = SE (KMemo id pos) c :: b) /\ mpos st <= pos).
  { intros st0 H0 F0. injection F0 as <-. auto. }
  pose proof (has_pop true st Hh) as PT. pose proof (has_pop false st Hh) as PF.
  assert (TP : forall b, m_tbl (snd (pop b st)) = m_tbl st) by (intro b; apply tbl_pop).
  destruct i; cbn [exec_a exec_d] in *; try contradiction; try discriminate; try (eapply GO; [|exact H]; exact Hh);
    try (eapply GO; [|exact H]; apply has_cons; exact Hh).
  - unfold peek in H. destruct (i_peek (m_src st)) as [[b'|] s0]; [destruct (byte_eqb b b')|]; first [eapply GO; [|exact H]; exact Hh | eapply FA; [| |exact H]; assumption].
  - (* commit *) eapply GO; [|exact H]. apply PT. destruct (kinds ttable CS st) as [|[] g]; try contradiction; exact Logic.I.
  - (* return *) destruct (kinds ttable CS st) as [|[] g] eqn:EK; try contradiction. specialize (PT Logic.I). destruct (pop true st) as [[[[] c]|] st']; try discriminate. eapply GO; [|exact H]. exact PT.
  - (* fail *) eapply FA; eassumption.
  - unfold peek in H. destruct (i_peek (m_src st)) as [[b'|] s0]; [destruct (cs_has s b')|]; first [eapply GO; [|exact H]; exact Hh | eapply FA; [| |exact H]; assumption].
  - destruct (i_advance bufsz (m_src st) (N.to_nat (bN n))) as [[] s0]; first [eapply GO; [|exact H]; exact Hh | eapply FA; [| |exact H]; assumption].
  - (* partial commit *) destruct (m_stk st) as [|[k c] stk] eqn:E; [discriminate|]. destruct k; try discriminate.
    assert (H1 : has stk) by (eapply has_tl; [exact Hh|discriminate]). destruct stk as [|[k2 c2] stk]; cbn [add_capt] in H; eapply GO; try exact H; cbn [m_stk set_ip set_stk s_kind s_capt]; apply has_cons.
    + exact H1.
    + eapply has_top. exact H1.
  - (* span *) eapply GO; [|exact H]. cbn [m_stk set_ip]. apply has_span. exact Hh.
  - (* back commit *) destruct (kinds ttable CS st) as [|[] g] eqn:EK; try contradiction. specialize (PT Logic.I). destruct (pop true st) as [[[[] c]|] st']; try discriminate. eapply GO; [|exact H]. exact PT.
  - (* fail twice *) destruct (kinds ttable CS st) as [|[] g] eqn:EK; try contradiction. eapply FA; [| |exact H]; [rewrite TP; exact P|exact (PF Logic.I)].
  - unfold peek in H. destruct (i_peek (m_src st)) as [b2 s0]. destruct (_ =? 0)%N; first [eapply GO; [|exact H]; exact Hh | eapply FA; [| |exact H]; assumption].
  - unfold peek in H. destruct (i_peek (m_src st)) as [[b'|] s0]; [destruct (byte_eqb b' b)|]; (eapply GO; [|exact H]); first [exact Hh | apply has_cons; exact Hh].
  - unfold peek in H. destruct (i_peek (m_src st)) as [[b'|] s0]; [destruct (byte_eqb b' b)|]; (eapply GO; [|exact H]); first [exact Hh | apply has_cons; exact Hh].
  - unfold peek in H. destruct (i_peek (m_src st)) as [[b'|] s0]; [destruct (cs_has s b')|]; (eapply GO; [|exact H]); first [exact Hh | apply has_cons; exact Hh].
  - unfold peek in H. destruct (i_peek (m_src st)) as [[b'|] s0]; [destruct (cs_has s b')|]; (eapply GO; [|exact H]); first [exact Hh | apply has_cons; exact Hh].
  - destruct (i_advance bufsz (m_src st) (N.to_nat (bN n))) as [[] s0]; (eapply GO; [|exact H]); first [exact Hh | apply has_cons; exact Hh].
  - (* memo open *) pose proof (knows_get threshold (m_tbl st) id0 (mpos st) P) as [P' _]. destruct (t_get ops (m_tbl st) id0 (mpos st)) as [[[[len|] cnt cs]|] tb]; cbn [snd] in P'.
    + eapply GO; [|exact H]. change (has (m_stk (Model_VM.add cs (set_tbl tb st)))). apply has_add. exact Hh.
    + eapply FA; [| |exact H]; assumption.
    + eapply GO; [|exact H]. apply has_cons. exact Hh.
  - (* memo close *) destruct (m_stk st) as [|[k c] stk] eqn:E; [unfold pop in H; rewrite E in H; discriminate|].
    unfold pop in H. rewrite E in H. cbn [s_kind s_capt] in H. destruct k; try discriminate.
    set (st' := Model_VM.add c (set_stk stk (m_base st) st)) in *.
    assert (M : mpos st' = mpos st) by (unfold st', Model_VM.add; destruct (add_capt _ _ _); reflexivity).
    assert (T : m_tbl st' = m_tbl st) by (unfold st', Model_VM.add; destruct (add_capt _ _ _); reflexivity).
    assert (LN : List.length (m_stk st') = List.length stk) by (unfold st'; rewrite add_len; reflexivity).
    destruct Hh as (a & c0 & b & Ea & Hb). destruct a as [|x a].
    + injection Ea as -> -> -> ->. right. destruct (le_lt_dec (mpos st) pos) as [Hp|Hp]; [right; split; [reflexivity|]; split; [eauto|exact Hp]|].
      left. injection H as <-. split; [cbn [m_stk set_ip memoize set_tbl]; lia|]. cbn [m_tbl set_ip memoize set_tbl tree_table t_put]. rewrite T, M.
      apply put_answered; [exact P|lia|lia|]. intro Ex. injection Ex as Ex. lia.
    + injection Ea as <- ->. eapply GO; [|exact H]. cbn [m_stk set_ip memoize set_tbl]. apply has_add. exists a, c0, b. auto.
  - (* tree open *) pose proof (knows_get threshold (m_tbl st) id0 (mpos st) P) as [P' _]. destruct (t_get ops (m_tbl st) id0 (mpos st)) as [[[[len|] cnt cs]|] tb]; cbn [snd] in P'.
    + eapply GO; [|exact H]. unfold peek, advance. destruct (i_peek _) as [b0 s0]. cbn [snd].
      match goal with |- has (m_stk ?x) => change (m_stk x) with (m_stk (Model_VM.add cs (push (KTree id0 (mpos st) cnt) (set_tbl tb st)))) end.
      apply has_add. apply has_cons. exact Hh.
    + eapply FA; [| |exact H]; assumption.
    + eapply GO; [|exact H]. apply has_cons. exact Hh.
  - (* insert *) destruct (m_stk st) as [|[k c] stk] eqn:E; [discriminate|]. destruct k; try discriminate. eapply GO; [|exact H]. cbn [m_stk set_ip memoize set_tbl set_stk]. eapply has_kind; [exact Hh|discriminate].
  - (* memo tree *) eapply GO; [|exact H]. cbn [m_stk set_ip]. apply has_loop; [reflexivity|exact Hh].
  - (* tree close *) eapply GO; [|exact H]. cbn [m_stk set_ip]. apply has_close. exact Hh.
  - (* capture end *) destruct (kinds ttable CS st) as [|[] g] eqn:EK; try contradiction. specialize (PF Logic.I). destruct (pop false st) as [[[[] c]|] st']; try discriminate. eapply GO; [|exact H].
    cbn [m_stk set_ip]. unfold add_node. cbn [ivl_overlaps]. apply has_add. exact PF.
  - (* capture full *) eapply GO; [|exact H]. cbn [m_stk set_ip]. unfold add_node. cbn [ivl_overlaps]. apply has_add. exact Hh.
  - (* check end *) destruct (kinds ttable CS st) as [|[] g] eqn:EK; try contradiction. specialize (PT Logic.I). specialize (TP true). destruct (pop true st) as [[[[] c]|] st']; try discriminate. cbn [snd] in *.
    destruct (check _ _ _ _ _ _ _) as [cs [n0|]]; [eapply GO; [|exact H]; exact PT|]. eapply FA; [| |exact H]; [cbn; rewrite TP; exact P|exact PT].
Qed.
End Entry.

Lemma reached_trans : forall T CS (step : mstate T CS -> step_res T CS) a b c, reached step a b -> reached step b c -> reached step a c.
Proof. intros T CS step a b c H K. induction K; [exact H|]. eapply rc_step; eassumption. Qed.
Lemma reached_knows : forall threshold bufsz CS check code (a b : mstate ttable CS), reached (vm_step bufsz (tree_table threshold) check None code) a b -> knows (m_tbl a) (m_tbl b).
Proof.
  intros threshold bufsz CS check code a b H. induction H as [|st1 st2 H IH Hs]; [apply knows_refl|].
  eapply knows_trans; [exact IH|].
  pose proof (R_step bufsz ttable (tree_table threshold) CS check knows knows_refl knows_trans (knows_get threshold) (knows_put threshold) None code st1) as S. rewrite Hs in S. exact S.
Qed.
Lemma entered : forall threshold bufsz CS check code (st st1 : mstate ttable CS) l id, decode code (m_ip st) = Some (IMemoOpen l id) ->
  vm_step bufsz (tree_table threshold) check None code st = Next st1 -> List.length (m_stk st) < List.length (m_stk st1) ->
  m_stk st1 = SE (KMemo id (mpos st)) [] :: m_stk st.
Proof.
  intros threshold bufsz CS check code st st1 l id D H Hl. unfold vm_step in H. rewrite D in H. cbn [exec_d] in H.
  destruct (t_get (tree_table threshold) (m_tbl st) id (mpos st)) as [[[[len|] cnt cs]|] tb].
  - injection H as <-. exfalso. change (List.length (m_stk st) < List.length (m_stk (Model_VM.add cs (set_tbl tb st)))) in Hl. rewrite add_len in Hl. cbn in Hl. lia.
  - apply fail_len in H. cbn in H. lia.
  - injection H as <-. reflexivity.
Qed.
Theorem left_answered : forall threshold bufsz CS check thr p code s t (cs : CS) st st1 st2 l id, (threshold <= 1)%Z -> unedited threshold t -> compiled thr p code ->
  let step := vm_step bufsz (tree_table threshold) check None code in
  reached step (init_state bufsz (tree_table threshold) None s t cs) st -> decode code (m_ip st) = Some (IMemoOpen l id) ->
  step st = Next st1 -> List.length (m_stk st) < List.length (m_stk st1) ->
  reached step st1 st2 -> List.length (m_stk st2) <= List.length (m_stk st) ->
  answered (m_tbl st2) id (mpos st) \/
  exists st', reached step st1 st' /\ reached step st' st2 /\ decode code (m_ip st') = Some IMemoClose /\ (exists c b, m_stk st' = SE (KMemo id (mpos st)) c :: b) /\ mpos st' = mpos st.
Proof.
  intros threshold bufsz CS check thr p code s t cs st st1 st2 l id Hth U Hc step R0 D S1 L1 R2 L2.
  destruct (compiled_closed _ _ _ Hc) as (c & I & He & HI & H0).
  pose proof (unedited_plain threshold t U) as PL.
  assert (PLA : forall x, reached step (init_state bufsz (tree_table threshold) None s t cs) x -> plain (m_tbl x)) by (intros x Hx; apply (reached_knows _ _ _ _ _ _ _ Hx); exact PL).
  assert (R1 : reached step (init_state bufsz (tree_table threshold) None s t cs) st1) by (eapply rc_step; eassumption).
  assert (G : has id (mpos st) (List.length (m_stk st)) (m_stk st2) \/ answered (m_tbl st2) id (mpos st) \/
    exists st', reached step st1 st' /\ reached step st' st2 /\ decode code (m_ip st') = Some IMemoClose /\ (exists c b, m_stk st' = SE (KMemo id (mpos st)) c :: b) /\ mpos st' = mpos st).
  { clear L2. induction R2 as [|x y R IH Hs].
    - left. rewrite (entered _ _ _ _ _ _ _ _ _ D S1 L1). exists [], [], (m_stk st). auto.
    - assert (Rx : reached step (init_state bufsz (tree_table threshold) None s t cs) x) by (eapply reached_trans; eassumption).
      assert (Ry : reached step (init_state bufsz (tree_table threshold) None s t cs) y) by (eapply rc_step; eassumption).
      destruct IH as [IH|[IH|(z & Z1 & Z2 & Z3)]].
      + pose proof (disc c code He I HI H0 bufsz ttable (tree_table threshold) CS check None s t cs x Rx) as Dx.
        destruct (img_next c code He I HI _ _ Dx) as (i & Hi & Xi). pose proof Hs as Hs'. unfold step, vm_step in Hs'. rewrite Hi in Hs'.
        destruct (once_step threshold Hth bufsz CS check id (mpos st) (List.length (m_stk st)) i _ x y _ Xi (PLA _ Rx) IH Hs') as [K|[[_ K]|(-> & (c0 & b & K) & Kp)]]; [left; exact K|right; left; exact K|].
        right. right. exists x. split; [exact R|]. split; [eapply rc_step; [apply rc_refl|exact Hs]|]. split; [exact Hi|]. split; [eauto|].
        assert (mpos st <= mpos x); [|lia].
        apply (starts_ok _ _ _ _ _ _ _ _ _ _ _ Rx (SE (KMemo id (mpos st)) c0)); [rewrite K; left; reflexivity|reflexivity].
      + right. left. apply (reached_knows threshold bufsz CS check code x y); [eapply rc_step; [apply rc_refl|exact Hs]|apply PLA; exact Rx|exact IH].
      + right. right. exists z. split; [exact Z1|]. split; [eapply rc_step; eassumption|exact Z3]. }
  destruct G as [G|G]; [|exact G]. apply has_len in G. lia.
Qed.
Theorem not_again : forall threshold bufsz CS check code (st2 st3 st4 : mstate ttable CS) id pos i l, unedited threshold (m_tbl st2) -> 
  let step := vm_step bufsz (tree_table threshold) check None code in
  answered (m_tbl st2) id pos -> reached step st2 st3 -> decode code (m_ip st3) = Some i -> i = IMemoOpen l id \/ i = IMemoTreeOpen l id -> mpos st3 = pos -> step st3 = Next st4 ->
  m_ip st4 = l \/ List.length (m_stk st4) < List.length (m_stk st3).
Proof.
  intros threshold bufsz CS check code st2 st3 st4 id pos i l U step A R D Hi Hp S. eapply (p_skips threshold bufsz CS check code st3 st4 i l id); try eassumption.
  rewrite Hp. apply (reached_knows threshold bufsz CS check code _ _ R); [apply (unedited_plain threshold); exact U|exact A].
Qed.
Theorem twice_empty : forall threshold bufsz CS check thr p code s t (cs : CS) st st1 st2 st3 st4 l l3 id, (threshold <= 1)%Z -> unedited threshold t -> compiled thr p code ->
  let step := vm_step bufsz (tree_table threshold) check None code in
  reached step (init_state bufsz (tree_table threshold) None s t cs) st -> decode code (m_ip st) = Some (IMemoOpen l id) ->
  step st = Next st1 -> List.length (m_stk st) < List.length (m_stk st1) ->
  reached step st1 st2 -> List.length (m_stk st2) <= List.length (m_stk st) ->
  reached step st2 st3 -> decode code (m_ip st3) = Some (IMemoOpen l3 id) -> mpos st3 = mpos st -> step st3 = Next st4 -> List.length (m_stk st3) < List.length (m_stk st4) ->
  exists st', reached step st1 st' /\ reached step st' st2 /\ decode code (m_ip st') = Some IMemoClose /\ (exists c b, m_stk st' = SE (KMemo id (mpos st)) c :: b) /\ mpos st' = mpos st.
Proof.
  intros threshold bufsz CS check thr p code s t cs st st1 st2 st3 st4 l l3 id Hth U Hc step R0 D S1 L1 R2 L2 R3 D3 Hp S3 L3.
  destruct (left_answered threshold bufsz CS check thr p code s t cs st st1 st2 l id Hth U Hc R0 D S1 L1 R2 L2) as [A|A]; [|exact A]. exfalso.
  assert (P2 : plain (m_tbl st2)).
  { apply (reached_knows threshold bufsz CS check code (init_state bufsz (tree_table threshold) None s t cs)); [|apply (unedited_plain threshold); exact U].
    eapply reached_trans; [eapply rc_step; [exact R0|exact S1]|exact R2]. }
  assert (A3 : answered (m_tbl st3) id (mpos st3)) by (rewrite Hp; apply (reached_knows threshold bufsz CS check code _ _ R3); assumption).
  unfold step, vm_step in S3. rewrite D3 in S3. cbn [exec_d tree_table t_get] in S3. unfold answered in A3.
  destruct (tt_get (m_tbl st3) id (mpos st3)) as [[[[len|] cnt cs1]|] tb]; cbn [fst] in A3.
  - injection S3 as <-. change (List.length (m_stk st3) < List.length (m_stk (Model_VM.add cs1 (set_tbl tb st3)))) in L3. rewrite add_len in L3. cbn in L3. lia.
  - apply fail_len in S3. cbn in S3. lia.
  - elim A3. reflexivity.
Qed.
