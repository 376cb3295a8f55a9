(** Compiled programs keep the stack discipline: an abstraction of the machine to the kinds of its
    stack entries never gets stuck, whatever the tests, the table and the checkers answer. *)
From Verif Require Import Base Model_Charset Model_Isa Model_Input Model_Capture Model_VM Model_Pattern Proof_Codegen Proof_Machine Proof_Emit Proof_Optimize.
Local Open Scope nat_scope.

(* ---------- the abstract machine ---------- *)
Inductive akind := ARet (r : nat) | ABt (ip : nat) | AMemo | ATree (id : Z) | ACapt | ACheck.
Definition kind_of (k : skind) : akind :=
  match k with
  | KRet r => ARet r | KBtrack ip _ => ABt ip | KMemo _ _ => AMemo
  | KTree id _ _ => ATree id | KCapt _ _ => ACapt | KCheck _ _ _ => ACheck
  end.
Definition is_tree (k : akind) : bool := match k with ATree _ => true | _ => false end.
Notation astack := (list akind).

(** where a failure at [k] continues *)
Fixpoint fl (k : nat) (g : astack) (Q : nat -> astack -> Prop) : Prop :=
  match g with
  | [] => True
  | ABt ip :: g => Q ip g
  | ATree _ :: g => Q k g
  | _ :: g => fl k g Q
  end.
Fixpoint drop_trees (id : Z) (g : astack) : astack :=
  match g with
  | ATree id' :: g' => if (id' =? id)%Z then drop_trees id g' else g
  | _ => g
  end.
(** what opMemoTree may leave: it removes trees as long as a tree remains on top *)
Inductive merged : astack -> astack -> Prop :=
| mg_refl : forall g, merged g g
| mg_step : forall a b g h, merged (ATree b :: g) h -> merged (ATree a :: ATree b :: g) h.

(** [exec_a i k next g Q]: instruction [i] at [k] does not panic, and every way it may continue is in [Q] *)
Definition exec_a (i : insn) (k next : nat) (g : astack) (Q : nat -> astack -> Prop) : Prop :=
  match i with
  | IChar _ | ISet _ | IAny _ | IEmpty _ => Q next g /\ fl k g Q
  | IJump l => Q l g
  | IChoice l => Q next (ABt l :: g)
  | ICall l => Q l (ARet next :: g)
  | ICommit l => match g with ABt _ :: g => Q l g | _ => False end
  | IReturn => match g with ARet r :: g => Q r g | _ => False end
  | IFail => fl k g Q
  | IPartialCommit l => match g with ABt _ :: _ => Q l g | _ => False end
  | ISpan _ | IError _ | ICaptureFull _ _ => Q next g
  | IBackCommit l => match g with ABt _ :: g => Q l g | _ => False end
  | IFailTwice => match g with ABt _ :: g => fl k g Q | _ => False end
  | ITestChar _ l | ITestSet _ l | ITestAny _ l => Q next (ABt l :: g) /\ Q l g
  | ITestCharNoChoice _ l | ITestSetNoChoice _ l => Q next g /\ Q l g
  | ICaptureBegin _ | ICaptureLate _ _ => Q next (ACapt :: g)
  | ICaptureEnd => match g with ACapt :: g => Q next g | _ => False end
  | IEnd f => f = true \/ g = []
  | IMemoOpen l _ => fl k g Q /\ Q l g /\ Q next (AMemo :: g)
  | IMemoClose => match g with AMemo :: g => Q next g | _ => False end
  | IMemoTreeOpen l id => fl k g Q /\ Q l (ATree id :: g) /\ Q next (ATree id :: g)
  | IMemoTreeClose id => Q next (drop_trees id g)
  | IMemoTreeInsert => match g with ATree _ :: _ => Q next g | _ => False end
  | IMemoTree => forall h, merged g h -> Q next h
  | ICheckBegin _ _ => Q next (ACheck :: g)
  | ICheckEnd _ => match g with ACheck :: g => Q next g /\ fl k g Q | _ => False end
  | ILabel _ | INop | IOpenCall _ => False
  end.
Definition astep (P : program) (k : nat) (g : astack) (Q : nat -> astack -> Prop) : Prop :=
  match nth_error P k with
  | Some (ILabel _) | Some INop => Q (S k) g
  | Some i => exec_a (map_lbl (lbl_index P) i) k (S k) g Q
  | None => k = List.length P /\ g = []
  end.
(** a set of configurations the machine does not leave and in which it does not panic *)
Definition closed (P : program) (I : nat -> astack -> Prop) : Prop := forall k g, I k g -> astep P k g I.

Lemma fl_mono : forall g k (Q R : nat -> astack -> Prop), (forall k g, Q k g -> R k g) -> fl k g Q -> fl k g R.
Proof. induction g as [|[] g IH]; intros k Q R H Hq; cbn [fl] in *; eauto. Qed.
Lemma exec_mono : forall i k next g (Q R : nat -> astack -> Prop), (forall k g, Q k g -> R k g) -> exec_a i k next g Q -> exec_a i k next g R.
Proof.
  intros i k next g Q R H Hq. pose proof (fun g k => fl_mono g k Q R H) as F.
  destruct i; cbn [exec_a] in *; try tauto; try (intuition auto; fail);
    try (destruct g as [|[] g]; try contradiction; intuition auto; fail).
Qed.
Lemma fl_all : forall g k (Q : nat -> nat -> astack -> Prop), (forall n, fl k g (Q n)) -> fl k g (fun k g => forall n, Q n k g).
Proof. induction g as [|[] g IH]; intros k Q H; cbn [fl] in *; auto. Qed.
Lemma exec_all : forall i k next g (Q : nat -> nat -> astack -> Prop), (forall n, exec_a i k next g (Q n)) -> exec_a i k next g (fun k g => forall n, Q n k g).
Proof.
  intros i k next g Q H.
  destruct i; cbn [exec_a] in *; try exact H; try (apply fl_all; exact H); try exact (H 0);
    try (repeat split; intros; try apply fl_all; intros; apply (H n); fail);
    try (repeat split; intros; try apply fl_all; intros; apply (H n0); fail);
    try (intros h Hh n; apply (H n); exact Hh);
    try (destruct g as [|[] g]; try exact (H 0); try exact H; repeat split; intros; try apply fl_all; intros; apply (H n); fail).
Qed.

(* ---------- the machine follows the abstract machine ---------- *)
Section Sim.
Variable bufsz : nat.
Variable T : Type.
Variable ops : table_ops T.
Variable CS : Type.
Variable check : nat -> CS -> list byte -> list byte -> nat -> Z -> Z -> CS * option nat.
Variable intrvl : option (nat * nat).
Notation mstate := (mstate T CS).
Definition kinds (st : mstate) : astack := map (fun e => kind_of (s_kind e)) (m_stk st).
Definition res_in (Q : nat -> astack -> Prop) (r : step_res T CS) : Prop :=
  match r with Next st => Q (m_ip st) (kinds st) | Done _ _ => True | Crash => False end.

Lemma kinds_add : forall cs st, kinds (add cs st) = kinds st.
Proof. intros cs [ip src stk base tbl er c rg]. unfold kinds, add. destruct stk as [|[k c0] stk]; reflexivity. Qed.
Lemma ip_add : forall cs (st : mstate), m_ip (add cs st) = m_ip st.
Proof. intros cs [ip src stk base tbl er c rg]. unfold add. destruct stk as [|[k c0] stk]; reflexivity. Qed.
Lemma kinds_pop : forall b st, kinds (snd (pop b st)) = tl (kinds st).
Proof. intros b [ip src stk base tbl er c rg]. unfold pop. destruct stk as [|e stk]; [reflexivity|]. destruct b; cbn [snd m_stk]; rewrite ?kinds_add; reflexivity. Qed.
Lemma ip_pop : forall b (st : mstate), m_ip (snd (pop b st)) = m_ip st.
Proof. intros b [ip src stk base tbl er c rg]. unfold pop. destruct stk as [|e stk]; [reflexivity|]. destruct b; cbn [snd m_stk]; rewrite ?ip_add; reflexivity. Qed.
Lemma kinds_memoize : forall id pos l n c st, kinds (memoize ops intrvl id pos l n c st) = kinds st.
Proof. intros. reflexivity. Qed.
Lemma ip_memoize : forall id pos l n c (st : mstate), m_ip (memoize ops intrvl id pos l n c st) = m_ip st.
Proof. intros. reflexivity. Qed.
Lemma do_fail_in : forall stk st Q, fl (m_ip st) (map (fun e => kind_of (s_kind e)) stk) Q -> res_in Q (do_fail bufsz ops intrvl stk st).
Proof.
  induction stk as [|[k c] stk IH]; intros st Q H; [exact I|]. cbn [map s_kind do_fail] in *.
  destruct k; cbn [kind_of fl] in H; try (apply IH; exact H); exact H.
Qed.
Lemma fail_in : forall st Q, fl (m_ip st) (kinds st) Q -> res_in Q (fail bufsz ops intrvl st).
Proof. intros. apply do_fail_in. assumption. Qed.
Lemma kinds_span : forall f s st, kinds (span_loop bufsz f s st) = kinds st.
Proof.
  induction f as [|f IH]; intros s st; cbn [span_loop]; unfold peek; destruct (i_peek (m_src st)) as [[b|] s0]; try reflexivity.
  destruct (cs_has s b); [|reflexivity]. rewrite IH. reflexivity.
Qed.
Lemma kinds_close : forall n id st, List.length (m_stk st) <= n -> kinds (tree_close n id st) = drop_trees id (kinds st).
Proof.
  induction n as [|n IH]; intros id st H.
  - unfold kinds. cbn [tree_close]. destruct (m_stk st); [reflexivity|cbn in H; lia].
  - cbn [tree_close]. destruct (m_stk st) as [|[k c] stk] eqn:E.
    + unfold kinds. rewrite E. reflexivity.
    + assert (K : kinds st = kind_of k :: map (fun e => kind_of (s_kind e)) stk) by (unfold kinds; rewrite E; reflexivity).
      rewrite K. destruct k; cbn [kind_of drop_trees]; try exact K. destruct (id0 =? id)%Z; [|exact K].
      rewrite IH; [rewrite kinds_pop, K; reflexivity|].
      assert (L : List.length (kinds (snd (pop true st))) = List.length (tl (kinds st))) by (rewrite kinds_pop; reflexivity).
      rewrite K in L. unfold kinds in L. rewrite !map_length in L. cbn [tl] in L. rewrite map_length in L. cbn in H. lia.
Qed.
Lemma kinds_pops : forall n st, kinds (tree_pops n st) = skipn n (kinds st).
Proof.
  induction n as [|n IH]; intro st; [reflexivity|]. cbn [tree_pops]. rewrite IH, kinds_pop. destruct (kinds st); cbn [tl skipn]; [apply skipn_nil|reflexivity].
Qed.
Lemma merged_trans : forall a b c, merged a b -> merged b c -> merged a c.
Proof. intros a b c H. induction H; intro H2; [exact H2|]. apply mg_step. auto. Qed.
Lemma merged_skip : forall n g, S n < List.length g -> forallb is_tree (firstn (S (S n)) g) = true -> merged g (skipn (S n) g).
Proof.
  induction n as [|n IH]; intros g L H.
  - destruct g as [|[] [|[] g]]; try (cbn in L; lia); try discriminate. apply mg_step. apply mg_refl.
  - destruct g as [|[] [|[] g]]; try (cbn in L; lia); try discriminate. apply mg_step. apply (IH (ATree id0 :: g)); [cbn in *; lia|exact H].
Qed.
Lemma forallb_firstn : forall n (g : astack) x, forallb is_tree (firstn n g) = true -> nth_error g n = Some x -> is_tree x = true -> forallb is_tree (firstn (S n) g) = true.
Proof.
  induction n as [|n IH]; intros [|y g] x H N X; try discriminate.
  - injection N as ->. cbn. rewrite X. reflexivity.
  - cbn [firstn forallb] in H. apply andb_true_iff in H. destruct H as [H1 H2]. change (firstn (S (S n)) (y :: g)) with (y :: firstn (S n) g). cbn [forallb]. rewrite H1. apply (IH g x); assumption.
Qed.
Lemma kinds_nth : forall st n e, nth_error (m_stk st) n = Some e -> nth_error (kinds st) n = Some (kind_of (s_kind e)).
Proof. intros st n e H. unfold kinds. rewrite nth_error_map, H. reflexivity. Qed.
Lemma ip_pops : forall n (st : mstate), m_ip (tree_pops n st) = m_ip st.
Proof. induction n as [|n IH]; intro st; [reflexivity|]. cbn [tree_pops]. rewrite IH. apply ip_pop. Qed.
Lemma tree_loop_in : forall f seen accum st, forallb is_tree (firstn seen (kinds st)) = true ->
  merged (kinds st) (kinds (tree_loop ops intrvl f seen accum st)).
Proof.
  induction f as [|f IH]; intros seen accum st H; [apply mg_refl|]. cbn [tree_loop].
  destruct (nth_error (m_stk st) seen) as [[k1 c1]|] eqn:E1; [|apply mg_refl]. destruct k1; try apply mg_refl.
  destruct (nth_error (m_stk st) (S seen)) as [[k2 c2]|] eqn:E2; [|apply mg_refl]. destruct k2; try apply mg_refl.
  apply kinds_nth in E1. apply kinds_nth in E2. cbn [s_kind kind_of] in *.
  assert (H1 : forallb is_tree (firstn (S seen) (kinds st)) = true) by (eapply forallb_firstn; [exact H|exact E1|reflexivity]).
  destruct (_ <? _); [apply IH; exact H1|].
  assert (H2 : forallb is_tree (firstn (S (S seen)) (kinds st)) = true) by (eapply forallb_firstn; [exact H1|exact E2|reflexivity]).
  assert (M : merged (kinds st) (skipn (S seen) (kinds st))) by (apply merged_skip; [apply nth_error_Some; congruence|exact H2]).
  replace (S seen - 1) with seen by lia. set (st1 := tree_pops seen st).
  pose proof (kinds_pop false st1) as K2. destruct (pop false st1) as [ent st2]. cbn [snd] in K2.
  assert (K3 : kinds st2 = skipn (S seen) (kinds st)).
  { rewrite K2. unfold st1. rewrite kinds_pops. clear. generalize (kinds st). intro g. revert g. induction seen as [|n IH]; intros [|x g]; try reflexivity. exact (IH g). }
  match goal with |- context [match m_stk ?s with _ => _ end] => set (st3 := s) end.
  assert (K4 : kinds st3 = kinds st2).
  { unfold st3. destruct ent as [[[] [|]]|]; try reflexivity. destruct intrvl; rewrite kinds_add; reflexivity. }
  clearbody st3. rewrite <- K3, <- K4 in M. destruct (m_stk st3) as [|[k3 c3] rest] eqn:E3; [exact M|]. destruct k3; try exact M.
  eapply merged_trans; [exact M|].
  assert (NID : id0 = id1).
  { rewrite K3 in K4. assert (X : nth_error (kinds st3) 0 = Some (ATree id1)) by (unfold kinds; rewrite E3; reflexivity).
    rewrite K4 in X. rewrite nth_skipn, Nat.add_0_r in X. congruence. }
  subst id1. match goal with |- merged _ (kinds (tree_loop _ _ _ _ _ ?s)) => assert (K5 : kinds s = kinds st3) end.
  { rewrite kinds_memoize. unfold kinds. rewrite E3. reflexivity. }
  rewrite <- K5. apply IH. reflexivity.
Qed.
Lemma ip_node : forall id a b c (st : mstate), m_ip (add_node intrvl id a b c st) = m_ip st.
Proof. intros. unfold add_node. destruct (ivl_overlaps intrvl a b); [rewrite ip_add|]; reflexivity. Qed.
Lemma kinds_node : forall id a b c st, kinds (add_node intrvl id a b c st) = kinds st.
Proof. intros. unfold add_node. destruct (ivl_overlaps intrvl a b); [rewrite kinds_add|]; reflexivity. Qed.
Lemma ip_set : forall n (st : mstate), m_ip (set_ip n st) = n. Proof. reflexivity. Qed.
Lemma kinds_set : forall n st, kinds (set_ip n st) = kinds st. Proof. reflexivity. Qed.

Lemma exec_in : forall i next st Q, exec_a i (m_ip st) next (kinds st) Q -> res_in Q (exec_d bufsz ops check intrvl i next st).
Proof.
  intros i next st Q H.
  pose proof (kinds_pop true st) as KT. pose proof (kinds_pop false st) as KF.
  pose proof (ip_pop true st) as IT. pose proof (ip_pop false st) as IF_.
  destruct i; cbn [exec_a exec_d] in *; try contradiction; try exact H.
  - (* char *) unfold peek. destruct (i_peek (m_src st)) as [[c|] s0]; [destruct (byte_eqb b c)|]; try (apply fail_in); apply H.
  - (* commit *) unfold res_in. rewrite ip_set, kinds_set, KT. destruct (kinds st) as [|[] g]; try contradiction. exact H.
  - (* return *) destruct (kinds st) as [|[] g] eqn:EK; try contradiction. unfold kinds in EK. unfold pop in *.
    destruct (m_stk st) as [|[k c] stk] eqn:E; [discriminate|]. destruct k; try discriminate. cbn [snd s_kind s_capt] in *. injection EK as -> EK.
    unfold res_in. rewrite ip_set, kinds_set, KT. exact H.
  - (* fail *) apply fail_in. exact H.
  - (* set *) unfold peek. destruct (i_peek (m_src st)) as [[c|] s0]; [destruct (cs_has s c)|]; try (apply fail_in); apply H.
  - (* any *) destruct (i_advance bufsz (m_src st) (N.to_nat (bN n))) as [[] s0]; [apply H|apply fail_in; apply H].
  - (* partial commit *) unfold kinds in H. destruct (m_stk st) as [|[k c] stk] eqn:E; [contradiction|]. destruct k; try contradiction.
    destruct stk as [|[k2 c2] stk]; exact H.
  - (* span *) unfold res_in. rewrite ip_set, kinds_set, kinds_span. exact H.
  - (* back commit *) destruct (kinds st) as [|[] g] eqn:EK; try contradiction. unfold kinds in EK. unfold pop in *.
    destruct (m_stk st) as [|[k c] stk] eqn:E; [discriminate|]. destruct k; try discriminate. cbn [snd s_kind s_capt] in *.
    unfold res_in. rewrite ip_set, kinds_set. change (Q l (kinds (add c (set_stk stk (m_base st) st)))). rewrite KT. exact H.
  - (* fail twice *) apply fail_in. rewrite KF, IF_. destruct (kinds st) as [|[] g]; try contradiction. exact H.
  - (* empty *) unfold peek. destruct (i_peek (m_src st)) as [b2 s0]. destruct (_ =? 0)%N; [apply fail_in|]; apply H.
  - unfold peek. destruct (i_peek (m_src st)) as [[c|] s0]; [destruct (byte_eqb c b)|]; apply H.
  - unfold peek. destruct (i_peek (m_src st)) as [[c|] s0]; [destruct (byte_eqb c b)|]; apply H.
  - unfold peek. destruct (i_peek (m_src st)) as [[c|] s0]; [destruct (cs_has s c)|]; apply H.
  - unfold peek. destruct (i_peek (m_src st)) as [[c|] s0]; [destruct (cs_has s c)|]; apply H.
  - destruct (i_advance bufsz (m_src st) (N.to_nat (bN n))) as [[] s0]; apply H.
  - (* end *) exact I.
  - (* memo open *) destruct (t_get ops (m_tbl st) id (mpos st)) as [[[[len|] cnt cs]|] tb].
    + unfold res_in. rewrite ip_set, kinds_set. unfold advance. change (Q l (kinds (add cs (set_tbl tb st)))). rewrite kinds_add. apply H.
    + apply fail_in. apply H.
    + apply H.
  - (* memo close *) destruct (kinds st) as [|[] g] eqn:EK; try contradiction. unfold kinds in EK. unfold pop in *.
    destruct (m_stk st) as [|[k c] stk] eqn:E; [discriminate|]. destruct k; try discriminate. cbn [snd s_kind s_capt] in *.
    unfold res_in. rewrite ip_set, kinds_set, kinds_memoize, KT. exact H.
  - (* tree open *) destruct (t_get ops (m_tbl st) id (mpos st)) as [[[[len|] cnt cs]|] tb].
    + unfold res_in. rewrite ip_set, kinds_set. unfold peek, advance. destruct (i_peek _) as [b0 s0]. cbn [snd].
      match goal with |- Q l (kinds ?x) => change (kinds x) with (kinds (add cs (push (KTree id (mpos st) cnt) (set_tbl tb st)))) end.
      rewrite kinds_add. apply H.
    + apply fail_in. apply H.
    + apply H.
  - (* insert *) unfold kinds in H. destruct (m_stk st) as [|[k c] stk] eqn:E; [contradiction|]. destruct k; try contradiction. exact H.
  - (* memo tree *) unfold res_in. rewrite ip_set, kinds_set. apply H. apply tree_loop_in. reflexivity.
  - (* tree close *) unfold res_in. rewrite ip_set, kinds_set, kinds_close by reflexivity. exact H.
  - (* capture end *) destruct (kinds st) as [|[] g] eqn:EK; try contradiction. unfold kinds in EK. unfold pop in *.
    destruct (m_stk st) as [|[k c] stk] eqn:E; [discriminate|]. destruct k; try discriminate. cbn [snd s_kind s_capt] in *.
    unfold res_in. rewrite ip_set, kinds_set, kinds_node, KF. exact H.
  - (* capture full *) unfold res_in. rewrite ip_set, kinds_set, kinds_node. exact H.
  - (* check end *) destruct (kinds st) as [|[] g] eqn:EK; try contradiction. unfold kinds in EK. unfold pop in *.
    destruct (m_stk st) as [|[k c] stk] eqn:E; [discriminate|]. destruct k; try discriminate. cbn [snd s_kind s_capt] in *.
    set (st1 := add c (set_stk stk (m_base st) st)) in *. destruct (check _ _ _ _ _ _ _) as [cs [n0|]].
    + unfold res_in. rewrite ip_set, kinds_set. change (Q next (kinds st1)). rewrite KT. apply H.
    + apply fail_in. change (fl (m_ip st1) (kinds st1) Q). rewrite KT, IT. apply H.
Qed.

Lemma sym_in : forall P Q st, astep P (m_ip st) (kinds st) Q -> res_in Q (sym_step bufsz ops check intrvl P st).
Proof.
  intros P Q st H. unfold astep in H. unfold sym_step.
  destruct (nth_error P (m_ip st)) as [i|]; [|rewrite (proj1 H), Nat.eqb_refl; exact I].
  destruct i; try exact H; apply exec_in; exact H.
Qed.
Theorem closed_safe : forall P I, closed P I -> forall f st, I (m_ip st) (kinds st) ->
  run (sym_step bufsz ops check intrvl P) f st <> Some RCrash.
Proof.
  intros P I HI. induction f as [|f IH]; intros st H; [discriminate|]. cbn [run]. apply HI in H. apply sym_in in H.
  destruct (sym_step bufsz ops check intrvl P st); [apply IH; exact H|discriminate|contradiction].
Qed.
End Sim.
