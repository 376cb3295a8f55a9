(** Properties C17, C18, C19, C35, C36 and C41: the pattern constructors and checkers.  The semantics
    [peg] is what the machine computes (C08). *)
From Verif Require Import Base Model_Charset Model_Isa Model_Capture Model_Input Model_Code Model_VM Model_Pattern Model_Checker Spec_Peg Spec_Scope Spec_Run Spec_Props Proof_Eval Proof_Frag Proof_Spec Proof_Checker Proof_Props2.
Local Open Scope nat_scope.
Definition no_check (k : nat) (cs : unit) (m s : list byte) (i : nat) (id fl : Z) : unit * option nat := (cs, None).

(** C17: Search(p) gives the result of p at the first position, from the current one to the end of the
    input, where p does not fail; it fails if p fails at all of them. *)
Theorem C17_search : forall s CS check E p i (w : world CS) r w', i <= List.length s ->
  (peg s check E (PSearch p) i w r w' <->
   (r <> RFail /\ exists k wk, k <= List.length s /\ fails_until s check E p i w k wk /\ peg s check E p k wk r w') \/
   (r = RFail /\ fails_until s check E p i w (S (List.length s)) w')).
Proof. intros s CS check. exact (search_spec s CS check). Qed.
Print Assumptions C17_search.
(** and this is what the machine does with a compiled Search *)
Theorem C17_exec_partial : forall bufsz CS check s thr p code (cs0 : CS) k wk r errs cs',
  0 < bufsz -> check_ok check s -> supported (PSearch p) -> compiled thr (PSearch p) code ->
  (r <> RFail /\ k <= List.length s /\ fails_until s check [] p 0 ([], cs0) k wk /\ peg s check [] p k wk r (errs, cs')) \/
  (r = RFail /\ fails_until s check [] p 0 ([], cs0) (S (List.length s)) (errs, cs')) ->
  exists f o st, vm_exec bufsz none_table check None f code s tt cs0 = Some (ROk o st) /\ agrees None r o /\ o_errs o = errs /\ m_cs st = cs'.
Proof.
  intros bufsz CS check s thr p code cs0 k wk r errs cs' Hb Hk Hp Hc H.
  refine (exec_some bufsz Hb CS check s Hk thr _ code None cs0 r errs cs' Hp Hc _).
  apply search_spec; [apply Nat.le_0_l|]. destruct H as [(A & B & C & D)|H]; [left|right; exact H]. split; [exact A|]. exists k, wk. auto.
Qed.
Print Assumptions C17_exec_partial.
(** searching "b" in "aab": the compiled program skips with a span *)
Example ex_search : supported (PSearch (PLit [x62])) /\ (exists code, compiled 100 (PSearch (PLit [x62])) code) /\
  fails_until [x61; x61; x62] no_check [] (PLit [x62]) 0 ([], tt) 2 ([], tt) /\
  peg [x61; x61; x62] no_check [] (PLit [x62]) 2 ([], tt) (RSucc 3 []) ([], tt).
Proof.
  split; [vm_compute; tauto|]. split; [eexists; exists 50, (CState 0 0); do 2 eexists; split; [vm_compute; reflexivity|vm_compute; reflexivity]|].
  split; [|eapply (eval_sound _ _ _ 5); vm_compute; reflexivity].
  eapply fu_S; [eapply (eval_sound _ _ _ 5); vm_compute; reflexivity|]. eapply fu_S; [eapply (eval_sound _ _ _ 5); vm_compute; reflexivity|]. apply fu_0.
Qed.

(** C18: predicates do not move; Not succeeds, without captures, when the pattern fails and fails when
    it succeeds; And succeeds when it succeeds and fails when it fails. *)
Theorem C18_not : forall s CS check E p i (w : world CS),
  (forall j ts w', peg s check E (PNot p) i w (RSucc j ts) w' <-> j = i /\ ts = [] /\ peg s check E p i w RFail w') /\
  (forall w', peg s check E (PNot p) i w RFail w' <-> exists j ts, peg s check E p i w (RSucc j ts) w').
Proof. intros s CS check. exact (not_spec s CS check). Qed.
Print Assumptions C18_not.
Theorem C18_and : forall s CS check E p i (w : world CS),
  (forall j ts w', peg s check E (PAnd p) i w (RSucc j ts) w' <-> j = i /\ exists k, peg s check E p i w (RSucc k ts) w') /\
  (forall w', peg s check E (PAnd p) i w RFail w' <-> peg s check E p i w RFail w').
Proof. intros s CS check. exact (and_spec s CS check). Qed.
Print Assumptions C18_and.
(** And(p) is Not(Not(p)) up to captures (And keeps those of p, Not drops them) *)
Theorem C18_dual : forall s CS check E p i (w : world CS) r w',
  peg s check E (PNot (PNot p)) i w r w' <-> exists r', peg s check E (PAnd p) i w r' w' /\ r = forget r'.
Proof. intros s CS check. exact (and_not_not s CS check). Qed.
Print Assumptions C18_dual.
(** on the machine *)
Theorem C18_exec_partial : forall bufsz CS check s thr p code code' (cs0 : CS) r w',
  0 < bufsz -> check_ok check s -> supported p -> compiled thr (PAnd p) code -> compiled thr (PNot (PNot p)) code' ->
  peg s check [] p 0 ([], cs0) r w' ->
  exists f o st g o' st', vm_exec bufsz none_table check None f code s tt cs0 = Some (ROk o st) /\
    vm_exec bufsz none_table check None g code' s tt cs0 = Some (ROk o' st') /\
    o_ok o = o_ok o' /\ o_errs o = o_errs o' /\ m_cs st = m_cs st' /\ (o_ok o = true -> o_pos o = 0 /\ o_pos o' = 0).
Proof. exact and_exec. Qed.
Print Assumptions C18_exec_partial.
Example ex_and : exists r w', peg [x61] no_check [] (PAnd (PCap (PLit [x61]) 3)) 0 ([], tt) r w' /\ r = RSucc 0 [CNode 3 0 1 []] /\
  peg [x61] no_check [] (PNot (PNot (PCap (PLit [x61]) 3))) 0 ([], tt) (forget r) w'.
Proof. do 2 eexists. split; [eapply (eval_sound _ _ _ 5); vm_compute; reflexivity|]. split; [reflexivity|]. eapply (eval_sound _ _ _ 5); vm_compute; reflexivity. Qed.

(** C19: Concat, Repeat and Or are the patterns of the list in sequence, n copies in sequence, and the first of
    the list that matches; Star repeats as long as the pattern matches; Star and Optional never fail. *)
Theorem C19_concat : forall s CS check E ps i (w : world CS) r w',
  peg s check E (p_concat ps) i w r w' <-> in_sequence s check E ps i w r w'.
Proof. intros s CS check. exact (concat_spec s CS check). Qed.
Print Assumptions C19_concat.
Theorem C19_repeat : forall s CS check E p n i (w : world CS) r w',
  peg s check E (p_repeat p n) i w r w' <-> in_sequence s check E (repeat p (Z.to_nat n)) i w r w'.
Proof. intros s CS check. exact (repeat_spec s CS check). Qed.
Print Assumptions C19_repeat.
Theorem C19_or : forall s CS check E ps i (w : world CS) r w', ps <> [] ->
  (peg s check E (p_or ps) i w r w' <-> first_of s check E ps i w r w').
Proof. intros s CS check. exact (or_spec s CS check). Qed.
Print Assumptions C19_or.
Theorem C19_star : forall s CS check E p i (w : world CS) j ts w',
  peg s check E (PStar p) i w (RSucc j ts) w' <->
  exists n w1, in_sequence s check E (repeat p n) i w (RSucc j ts) w1 /\ peg s check E p j w1 RFail w'.
Proof. intros s CS check. exact (star_spec s CS check). Qed.
Print Assumptions C19_star.
Theorem C19_never_fail : forall s CS check E p i (w : world CS) w',
  ~ peg s check E (PStar p) i w RFail w' /\ ~ peg s check E (POpt p) i w RFail w'.
Proof. intros s CS check E p i w w'. split; [apply star_not_fail|apply opt_not_fail]. Qed.
Print Assumptions C19_never_fail.
(** the documentation of Or does not say that without arguments it succeeds *)
Example ex_or_nil : p_or [] = PEmpty. Proof. reflexivity. Qed.
Example ex_or : p_or [PLit [x61]; PLit [x62]; PDot x01] = PAlt (PLit [x61]) (PAlt (PLit [x62]) (PDot x01)). Proof. reflexivity. Qed.
(** Any(n) with n > 1 can fail although enough bytes remain, namely across the end of a 4096 byte
    chunk: Concat(Star(Set("a")), Any(2)) on 4095 times "a" followed by "bb" *)
Definition any2_input : list byte := repeat x61 (N.to_nat 4095) ++ [x62; x62].
Theorem C19_any_refuted : exists code f o st,
  compiled 100 (p_concat [PStar (PClass (cs_new [x61])); PDot x02]) code /\
  vm_exec (N.to_nat 4096) none_table no_check None f code any2_input tt tt = Some (ROk o st) /\ o_ok o = false.
Proof.
  eexists. exists 10. do 2 eexists. split; [exists 10, (CState 0 0); do 2 eexists; split; [vm_compute; reflexivity|vm_compute; reflexivity]|].
  split; [vm_compute; reflexivity|reflexivity].
Qed.
Print Assumptions C19_any_refuted.

(** C35: Check with a MapChecker matches iff the pattern matches one of the listed strings. *)
Theorem C35_map : forall cks s E p k id fl strs i (w : world symbols), cks k = MapChecker strs ->
  (forall j ts w', peg s (std_check cks) E (PCheck p k id fl) i w (RSucc j ts) w' <->
     peg s (std_check cks) E p i w (RSucc j ts) w' /\ In (firstn (j - i) (skipn i s)) strs) /\
  (forall w', peg s (std_check cks) E (PCheck p k id fl) i w RFail w' <->
     peg s (std_check cks) E p i w RFail w' \/
     exists j ts, peg s (std_check cks) E p i w (RSucc j ts) w' /\ ~ In (firstn (j - i) (skipn i s)) strs).
Proof. exact map_spec. Qed.
Print Assumptions C35_map.
(** a use of a reference matches, after the pattern q of the check, exactly the text matched by the last
    definition, when nothing in between defines it again *)
Theorem C35_backref : forall cks s k id E p m q i j1 ts1 w w1 j2 ts2 w2 j3 ts3 errs cs, cks k = BackReference ->
  no_def k id m -> no_def k id q -> env_no_def k id E ->
  peg s (std_check cks) E (PCheck p k id 0) i w (RSucc j1 ts1) w1 ->
  peg s (std_check cks) E m j1 w1 (RSucc j2 ts2) w2 ->
  peg s (std_check cks) E q j2 w2 (RSucc j3 ts3) (errs, cs) ->
  forall r w3, peg s (std_check cks) E (PCheck q k id 1) j2 w2 r w3 ->
  let text := firstn (j1 - i) (skipn i s) in
  w3 = (errs, cs) /\
  (firstn (List.length text) (skipn j3 s) = text -> r = RSucc (j3 + List.length text) ts3) /\
  (firstn (List.length text) (skipn j3 s) <> text -> r = RFail).
Proof. exact backref_spec. Qed.
Print Assumptions C35_backref.
(** these checkers meet the condition of C08 that a checker does not skip past the end *)
Theorem C35_check_ok : forall cks s, check_ok (std_check cks) s.
Proof. exact std_check_ok. Qed.
Print Assumptions C35_check_ok.
Definition ex_cks (k : nat) : checker := match k with 0 => MapChecker [[x61]; [x61; x62]] | _ => BackReference end.
Definition ex_letters : pattern := PPlus (PClass (cs_range x61 x7a)).
(** ab=ab and ab=ac *)
Example ex_backref :
  let p := p_concat [PCheck ex_letters 1 7 0; PLit [x3d]; PCheck PEmpty 1 7 1] in
  (exists w', peg [x61; x62; x3d; x61; x62] (std_check ex_cks) [] p 0 ([], fun _ _ => []) (RSucc 5 []) w') /\
  (exists w', peg [x61; x62; x3d; x61; x63] (std_check ex_cks) [] p 0 ([], fun _ _ => []) RFail w').
Proof. split; eexists; (eapply (eval_sound _ _ _ 9); vm_compute; reflexivity). Qed.
Example ex_map :
  let p := PCheck ex_letters 0 0 0 in
  (exists w', peg [x61; x62] (std_check ex_cks) [] p 0 ([], fun _ _ => []) (RSucc 2 []) w') /\
  (exists w', peg [x61; x63] (std_check ex_cks) [] p 0 ([], fun _ _ => []) RFail w').
Proof. split; eexists; (eapply (eval_sound _ _ _ 9); vm_compute; reflexivity). Qed.
(** A definition made in an alternative that fails later is not undone, contrary to captures:
    (def(.) "z") / (. use) matches "aa" up to 2, while after undoing, the use would match the empty string. *)
Theorem C35_backtrack_refuted : exists code f o st,
  let p := PAlt (PSeq (PCheck (PDot x01) 1 7 0) (PLit [x7a])) (PSeq (PDot x01) (PCheck PEmpty 1 7 1)) in
  let q := PSeq (PDot x01) (PCheck PEmpty 1 7 1) in
  compiled 100 p code /\
  vm_exec (N.to_nat 4096) none_table (std_check ex_cks) None f code [x61; x61] tt (fun _ _ => []) = Some (ROk o st) /\ o_ok o = true /\ o_pos o = 2 /\
  exists w', peg [x61; x61] (std_check ex_cks) [] q 0 ([], fun _ _ => []) (RSucc 1 []) w'.
Proof.
  eexists. exists 20. do 2 eexists. cbv zeta. split; [exists 10, (CState 0 0); do 2 eexists; split; [vm_compute; reflexivity|vm_compute; reflexivity]|].
  split; [vm_compute; reflexivity|]. split; [reflexivity|]. split; [reflexivity|]. eexists. eapply (eval_sound _ _ _ 9). vm_compute. reflexivity.
Qed.
Print Assumptions C35_backtrack_refuted.

(** C36: the machine's test for EmptyOp, on the bytes around the position, is true iff one of the
    requested assertions holds there. *)
Theorem C36_context : forall s i op,
  (N.land (empty_op_context (byte_before s i) (nth_error s i)) (bN op) =? 0)%N = false <->
  exists bit, (bit < 6)%N /\ N.testbit (bN op) bit = true /\ assertion s i bit = true.
Proof. exact empty_op_spec. Qed.
Print Assumptions C36_context.
(** on the machine: skip to any position of the input, then assert *)
Theorem C36_exec : forall bufsz CS check s thr i op code (cs0 : CS),
  0 < bufsz -> check_ok check s -> i <= List.length s ->
  compiled thr (PSeq (p_repeat (PDot x01) (Z.of_nat i)) (PEmptyOp op)) code ->
  exists f o st, vm_exec bufsz none_table check None f code s tt cs0 = Some (ROk o st) /\
    (o_ok o = true <-> exists bit, (bit < 6)%N /\ N.testbit (bN op) bit = true /\ assertion s i bit = true) /\
    (o_ok o = true -> o_pos o = i).
Proof. exact empty_op_exec. Qed.
Print Assumptions C36_exec.
Example ex_empty_op : exists code, compiled 100 (PSeq (p_repeat (PDot x01) (Z.of_nat 3)) (PEmptyOp x10)) code.
Proof. eexists. exists 50, (CState 0 0). do 2 eexists. split; [vm_compute; reflexivity|vm_compute; reflexivity]. Qed.
(** word boundary in "ab cd" at 2, not at 1; end of text at 5 *)
Example ex_assertions : assertion [x61; x62; x20; x63; x64] 2 4 = true /\ assertion [x61; x62; x20; x63; x64] 1 4 = false /\ assertion [x61; x62; x20; x63; x64] 5 3 = true.
Proof. repeat split. Qed.

(** C41: CapGrammar numbers the non-terminals 0..n-1, reports the numbers, and every match of a
    non-terminal is one capture with its number over the matched text, with the captures of the definition inside. *)
Theorem C41_ids : forall start defs g ids, p_cap_grammar start defs = (g, ids) ->
  map fst ids = map fst defs /\ map snd ids = map Z.of_nat (seq 0 (List.length defs)) /\
  exists defs', g = PGrammar defs' start /\ map fst defs' = map fst defs.
Proof. exact cap_grammar_ids. Qed.
Print Assumptions C41_ids.
Theorem C41_captures : forall s CS check E start defs g ids x v n i w,
  p_cap_grammar start defs = (g, ids) -> assoc defs x = Some v -> assoc ids x = Some n ->
  exists defs', g = PGrammar defs' start /\
  forall r w', peg s (CS:=CS) check (defs' :: E) (PNonTerm x None) i w r w' <->
    exists r', peg s check (defs' :: E) v i w r' w' /\ r = match r' with RSucc j ts => RSucc j [CNode n i (j - i) ts] | r' => r' end.
Proof. exact cap_grammar_captures. Qed.
Print Assumptions C41_captures.
Example ex_cap_grammar : p_cap_grammar "A" [("A"%string, PNonTerm "B" None); ("B"%string, PLit [x62])] =
  (PGrammar [("A"%string, PCap (PNonTerm "B" None) 0); ("B"%string, PCap (PLit [x62]) 1)] "A", [("A"%string, 0%Z); ("B"%string, 1%Z)]).
Proof. reflexivity. Qed.
