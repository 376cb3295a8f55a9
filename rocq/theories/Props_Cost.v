(** C51: what is memoized is not parsed again. *)
From Coq Require Import ZArith.
From Verif Require Import Base Model_Charset Model_Isa Model_Capture Model_Input Model_Code Model_VM Model_Pattern Model_Table Model_Share Spec_Peg Spec_Scope Spec_Run Spec_Memo Spec_Positions Spec_Cost Proof_Memo Proof_Positions Proof_Cost Proof_Cost2 Proof_Once.
Local Open Scope nat_scope.

(** An answer in the table stays until the text is edited: whatever program is executed, from whatever state and for however
    many instructions. *)
Theorem C51_keeps : forall threshold bufsz CS check code (st : mstate ttable CS) n id pos, unedited threshold (m_tbl st) ->
  answered (m_tbl st) id pos -> answered (m_tbl (state_after (vm_step bufsz (tree_table threshold) check None code) n st)) id pos.
Proof. intros threshold bufsz CS check code st n id pos U. apply knows_after. eapply unedited_plain. exact U. Qed.
Print Assumptions C51_keeps.

(** MemoOpen and MemoTreeOpen go past a pattern that has an answer, or fail; they do not enter it. *)
Theorem C51_skips : forall threshold bufsz CS check code (st st1 : mstate ttable CS) i l id,
  answered (m_tbl st) id (mpos st) -> decode code (m_ip st) = Some i -> i = IMemoOpen l id \/ i = IMemoTreeOpen l id ->
  vm_step bufsz (tree_table threshold) check None code st = Next st1 ->
  m_ip st1 = l \/ List.length (m_stk st1) < List.length (m_stk st).
Proof. exact p_skips. Qed.
Print Assumptions C51_skips.

(** A table that stores short entries too has an answer for every memoized pattern that has matched something, *)
Theorem C51_matched : forall threshold bufsz CS check code (st st1 : mstate ttable CS) rest id pos c, (threshold <= 1)%Z -> unedited threshold (m_tbl st) ->
  decode code (m_ip st) = Some IMemoClose -> m_stk st = SE (KMemo id pos) c :: rest -> pos < mpos st ->
  vm_step bufsz (tree_table threshold) check None code st = Next st1 -> answered (m_tbl st1) id pos.
Proof. intros threshold bufsz CS check code st st1 rest id pos c T U. eapply p_closed; [exact T|apply (unedited_plain threshold); exact U]. Qed.
Print Assumptions C51_matched.

(** and for every one that is given up because an instruction fails. *)
Theorem C51_failed : forall threshold bufsz CS check code (st st1 : mstate ttable CS) i gone id pos c, (threshold <= 1)%Z -> unedited threshold (m_tbl st) ->
  decode code (m_ip st) = Some i -> tests i = true -> vm_step bufsz (tree_table threshold) check None code st = Next st1 ->
  m_stk st = gone ++ m_stk st1 -> In (SE (KMemo id pos) c) gone -> answered (m_tbl st1) id pos.
Proof. intros threshold bufsz CS check code st st1 i gone id pos c T U. eapply p_failed; [exact T|apply (unedited_plain threshold); exact U]. Qed.
Print Assumptions C51_failed.

(** So a memoized pattern that has matched something is not entered again at the same place, in this parse ... *)
Theorem C51_once_partial : forall threshold bufsz CS check code s t (cs : CS) n m st1 rest id pos c i l st3, (threshold <= 1)%Z -> unedited threshold t ->
  let step := vm_step bufsz (tree_table threshold) check None code in
  let st := state_after step n (init_state bufsz (tree_table threshold) None s t cs) in
  decode code (m_ip st) = Some IMemoClose -> m_stk st = SE (KMemo id pos) c :: rest -> pos < mpos st -> step st = Next st1 ->
  let st2 := state_after step m st1 in
  decode code (m_ip st2) = Some i -> i = IMemoOpen l id \/ i = IMemoTreeOpen l id -> mpos st2 = pos -> step st2 = Next st3 ->
  m_ip st3 = l \/ List.length (m_stk st3) < List.length (m_stk st2).
Proof.
  intros threshold bufsz CS check code s t cs n m st1 rest id pos c i l st3 T U step st D K L S st2 D2 I2 P2 S2.
  assert (U0 : unedited threshold (m_tbl st)) by (apply un_run; exact U). pose proof (unedited_plain threshold _ U0) as W.
  eapply (p_skips threshold bufsz CS check code st2 st3 i l id); [|exact D2|exact I2|exact S2]. rewrite P2.
  pose proof (knows_after threshold bufsz CS check code 1 st W) as [W1 _]. cbn [state_after] in W1. fold step in W1. rewrite S in W1.
  apply (knows_after threshold bufsz CS check code m st1 W1). eapply C51_matched; eassumption.
Qed.
Print Assumptions C51_once_partial.

(** In the program of a pattern no other instruction takes the entry of a memoized pattern off the stack: when the machine
    has entered the pattern [id], by MemoOpen, and has left it again, the table has an answer, unless it has matched the empty text, *)
Theorem C51_left : forall threshold bufsz CS check thr p code s t (cs : CS) st st1 st2 l id, (threshold <= 1)%Z -> unedited threshold t -> compiled thr p code ->
  let step := vm_step bufsz (tree_table threshold) check None code in
  reached step (init_state bufsz (tree_table threshold) None s t cs) st -> decode code (m_ip st) = Some (IMemoOpen l id) ->
  step st = Next st1 -> List.length (m_stk st) < List.length (m_stk st1) ->
  reached step st1 st2 -> List.length (m_stk st2) <= List.length (m_stk st) ->
  answered (m_tbl st2) id (mpos st) \/
  exists st', reached step st1 st' /\ reached step st' st2 /\ decode code (m_ip st') = Some IMemoClose /\ (exists c b, m_stk st' = SE (KMemo id (mpos st)) c :: b) /\ mpos st' = mpos st.
Proof. exact left_answered. Qed.
Print Assumptions C51_left.

(** so that it is entered a second time at the same position only if it has matched the empty text the first time. *)
Theorem C51_twice : forall threshold bufsz CS check thr p code s t (cs : CS) st st1 st2 st3 st4 l l3 id, (threshold <= 1)%Z -> unedited threshold t -> compiled thr p code ->
  let step := vm_step bufsz (tree_table threshold) check None code in
  reached step (init_state bufsz (tree_table threshold) None s t cs) st -> decode code (m_ip st) = Some (IMemoOpen l id) ->
  step st = Next st1 -> List.length (m_stk st) < List.length (m_stk st1) ->
  reached step st1 st2 -> List.length (m_stk st2) <= List.length (m_stk st) ->
  reached step st2 st3 -> decode code (m_ip st3) = Some (IMemoOpen l3 id) -> mpos st3 = mpos st -> step st3 = Next st4 -> List.length (m_stk st3) < List.length (m_stk st4) ->
  exists st', reached step st1 st' /\ reached step st' st2 /\ decode code (m_ip st') = Some IMemoClose /\ (exists c b, m_stk st' = SE (KMemo id (mpos st)) c :: b) /\ mpos st' = mpos st.
Proof. exact twice_empty. Qed.
Print Assumptions C51_twice.

Definition no_check (k : nat) (cs : unit) (m s : list byte) (i : nat) (id fl : Z) : unit * option nat := (cs, None).
(** ... and in the next one: words in two alternatives, parsed once *)
Definition word : pattern := PMemo (PPlus (PClass (cs_range x61 x7a))) 1.
Definition words : pattern := PAlt (PSeq word (PLit [x21])) (PSeq word (PLit [x3f])).
Definition words_code : code :=
  match compile 100 50 words (CState 0 2) with COk c _ => match encode c with Some k => k | None => Code [] [] [] [] end | _ => Code [] [] [] [] end.
Definition words_st (n : nat) : mstate ttable unit :=
  state_after (vm_step 4 (tree_table 0) no_check None words_code) n (init_state 4 (tree_table 0) None [x61; x62; x3f] tt_new tt).
Example C51_words : unedited 0 (m_tbl (words_st 4)) /\ decode words_code (m_ip (words_st 4)) = Some IMemoClose /\
  (exists c rest, m_stk (words_st 4) = SE (KMemo 1 0) c :: rest) /\ mpos (words_st 4) = 2 /\ answered (m_tbl (words_st 5)) 1 0 /\
  (exists l, decode words_code (m_ip (words_st 6)) = Some (IMemoOpen l 1) /\ m_ip (words_st 7) = l) /\ mpos (words_st 6) = 0 /\ mpos (words_st 7) = 2.
Proof.
  split; [apply un_run; constructor|]. split; [vm_compute; reflexivity|]. split; [do 2 eexists; vm_compute; reflexivity|]. split; [vm_compute; reflexivity|].
  split; [vm_compute; discriminate|]. split; [eexists; split; vm_compute; reflexivity|]. split; vm_compute; reflexivity.
Qed.
(** and a failure: no word at the start of [!] *)
Definition none_st (n : nat) : mstate ttable unit :=
  state_after (vm_step 4 (tree_table 0) no_check None words_code) n (init_state 4 (tree_table 0) None [x21] tt_new tt).
Example C51_words_fail : exists i gone c, decode words_code (m_ip (none_st 2)) = Some i /\ tests i = true /\
  vm_step 4 (tree_table 0) no_check None words_code (none_st 2) = Next (none_st 3) /\ m_stk (none_st 2) = gone ++ m_stk (none_st 3) /\
  In (SE (KMemo 1 0) c) gone /\ answered (m_tbl (none_st 3)) 1 0.
Proof.
  do 3 eexists. split; [vm_compute; reflexivity|]. split; [reflexivity|]. split; [vm_compute; reflexivity|].
  split; [|split; [|vm_compute; discriminate]].
  - instantiate (1 := [_; _]). vm_compute. reflexivity.
  - vm_compute. left. reflexivity.
Qed.

(** The word of this example is entered once and left with an answer, *)
Definition after4 (c : code) (text : list byte) (n : nat) : mstate ttable unit :=
  after_steps (vm_step 4 (tree_table 0) no_check None c) n (init_state 4 (tree_table 0) None text tt_new tt).
Definition enters (c : code) (text : list byte) (n : nat) : bool :=
  match decode c (m_ip (after4 c text n)) with Some (IMemoOpen _ id) => (id =? 1)%Z | _ => false end &&
  (List.length (m_stk (after4 c text n)) <? List.length (m_stk (after4 c text (S n)))).
Example words_compiled : compiled 100 words words_code.
Proof.
  assert (E : match compile 100 50 words (CState 0 2) with COk c _ => match encode c with Some _ => True | None => False end | _ => False end) by (vm_compute; exact Logic.I).
  unfold words_code. destruct (compile 100 50 words (CState 0 2)) as [c st| | |] eqn:Ec; try contradiction. destruct (encode c) as [k|] eqn:Ee; [|contradiction].
  exists 50, (CState 0 2), c, st. split; assumption.
Qed.
Example C51_words_left : enters words_code [x61; x62; x3f] 1 = true /\
  List.length (m_stk (after4 words_code [x61; x62; x3f] 5)) <= List.length (m_stk (after4 words_code [x61; x62; x3f] 1)) /\
  forallb (fun n => negb (enters words_code [x61; x62; x3f] n)) (seq 2 10) = true.
Proof.
  split; [vm_compute; reflexivity|split; [vm_compute; repeat constructor|vm_compute; reflexivity]].
Qed.
(** and an optional word that is not there is entered twice. *)
Definition maybe : pattern := PAlt (PSeq (PMemo (POpt (PLit [x61; x62])) 1) (PLit [x21])) (PSeq (PMemo (POpt (PLit [x61; x62])) 1) (PLit [x3f])).
Definition maybe_code : code :=
  match compile 100 50 maybe (CState 0 2) with COk c _ => match encode c with Some k => k | None => Code [] [] [] [] end | _ => Code [] [] [] [] end.
Example maybe_compiled : compiled 100 maybe maybe_code.
Proof.
  assert (E : match compile 100 50 maybe (CState 0 2) with COk c _ => match encode c with Some _ => True | None => False end | _ => False end) by (vm_compute; exact Logic.I).
  unfold maybe_code. destruct (compile 100 50 maybe (CState 0 2)) as [c st| | |] eqn:Ec; try contradiction. destruct (encode c) as [k|] eqn:Ee; [|contradiction].
  exists 50, (CState 0 2), c, st. split; assumption.
Qed.
Example C51_empty_twice : filter (enters maybe_code [x3f]) (seq 0 20) = [1; 5] /\
  mpos (after4 maybe_code [x3f] 1) = 0 /\ mpos (after4 maybe_code [x3f] 5) = 0.
Proof.
  split; [vm_compute; reflexivity|split; vm_compute; reflexivity].
Qed.

(** The code violates the property for repetitions of memoized patterns: their failures are not stored.  The rule
    T <- '(' {{T}}* 'x' / '(' {{T}}* 'y' takes time exponential in the length of the text, although the rule is
    memoized wherever it is used. *)
Definition again_env : env := [[("T"%string, PAlt (again_part 1 x78) (again_part 2 x79))]].
Definition again_set : list (env * pattern) := ([], again) :: map (fun q => (again_env, q))
  (PAlt (again_part 1 x78) (again_part 2 x79) :: PNonTerm "T" None :: PLit [x28] ::
   List.concat (map (fun ib : Z * byte => let (id, b) := ib in
     [again_part id b; PSeq (PStar (PMemo (PNonTerm "T" None) id)) (PLit [b]); PStar (PMemo (PNonTerm "T" None) id); PMemo (PNonTerm "T" None) id; PLit [b]]) [(1%Z, x78); (2%Z, x79)])).
Example again_closed : forall E q E' q', In (E, q) again_set -> child E q E' q' -> In (E', q') again_set.
Proof.
  intros E q E' q' H C. unfold again_set in H. cbn [map List.concat app In] in H.
  repeat (destruct H as [H|H]; [injection H as <- <-; inversion C; subst;
    try (match goal with K : In _ _ |- _ => destruct K as [K|[]]; injection K as <- <- end);
    try (match goal with K : lookup _ _ = _ |- _ => vm_compute in K; injection K as <- <- end);
    unfold again_set; cbn [map List.concat app In]; tauto|]). destruct H.
Qed.
Example again_part_in : forall E q, part [] again E q -> In (E, q) again_set.
Proof. intros E q H. apply (part_in (fun E q => In (E, q) again_set) again_closed) in H; [exact H|left; reflexivity]. Qed.
Example again_memoized : forall id E q, memoized again id E q -> (id = 1 \/ id = 2)%Z /\ E = again_env /\ q = PNonTerm "T" None.
Proof.
  intros id E q H. apply again_part_in in H. unfold again_set in H. cbn [map List.concat app In] in H.
  repeat (destruct H as [H|H]; [discriminate H || (injection H as <- <- <-; auto)|]). destruct H.
Qed.
Theorem C51_refuted : exists p code, supported p /\ compiled_memo 100 p code /\ memo_once p /\ memo_effectless p /\
  (forall E q E' x, part [] p E q -> child E q E' (PNonTerm x None) -> exists id, q = PMemo (PNonTerm x None) id) /\
  forall bufsz threshold n, 0 < bufsz -> takes_at_least bufsz threshold code (repeat x28 n) (2 ^ n).
Proof.
  exists again, again_code. split; [split; [vm_compute; intuition|split; [|vm_compute; intuition]]; (split; [repeat constructor; simpl; intuition discriminate|vm_compute; intuition])|]. split; [|split; [|split; [|split]]].
  - exists 50, (CState 0 2). do 2 eexists. split; [|split; [vm_compute; reflexivity|vm_compute; reflexivity]].
    intros id E q H. apply again_memoized in H. cbn [cs_memo]. destruct H as [[-> | ->] _]; lia.
  - intros id E q E' q' H H'. apply again_memoized in H. apply again_memoized in H'. destruct H as (_ & -> & ->), H' as (_ & -> & ->). auto.
  - intros id E q E' q' H P. apply again_memoized in H. destruct H as (_ & -> & ->).
    apply (part_in (fun E q => In (E, q) again_set) again_closed) in P; [|right; right; left; reflexivity].
    unfold again_set in P. cbn [map List.concat app In] in P. repeat (destruct P as [P|P]; [injection P as <- <-; exact Logic.I|]). destruct P.
  - intros E q E' x P C. apply again_part_in in P. unfold again_set in P. cbn [map List.concat app In] in P.
    repeat (destruct P as [P|P]; [injection P as <- <-; inversion C; subst; try discriminate; try (eexists; reflexivity);
      try (match goal with K : In _ _ |- _ => destruct K as [K|[]]; discriminate K end);
      try (match goal with K : lookup _ _ = _ |- _ => vm_compute in K; discriminate K end)|]). destruct P.
  - exact again_lasts.
Qed.
Print Assumptions C51_refuted.

(** When the rule itself is memoized, T <- {{'(' T* 'x' / '(' T* 'y'}}, the failures are stored: fewer than 500 instructions for
    10 bytes, where the grammar above takes more than 1024. *)
Definition stored_part (b : byte) : pattern := PSeq (PLit [x28]) (PSeq (PStar (PNonTerm "T" None)) (PLit [b])).
Definition stored_once : pattern := PGrammar [("T"%string, PMemo (PAlt (stored_part x78) (stored_part x79)) 1)] "T"%string.
Definition stored_code : code :=
  match compile 100 50 stored_once (CState 0 2) with COk c _ => match encode c with Some k => k | None => Code [] [] [] [] end | _ => Code [] [] [] [] end.
Example C51_contrast : (exists o st, vm_exec 4 (tree_table 0) no_check None 500 stored_code (repeat x28 10) tt_new tt = Some (ROk o st)) /\
  vm_exec 4 (tree_table 0) no_check None 1023 again_code (repeat x28 10) tt_new tt = None.
Proof. split; [do 2 eexists|]; vm_compute; reflexivity. Qed.
