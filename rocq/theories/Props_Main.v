(** Properties C08, C09, C10, C14, C20 and C37: running compiled patterns. *)
From Verif Require Import Base Model_Charset Model_Isa Model_Capture Model_Input Model_Code Model_VM Model_Pattern Spec_Peg Spec_Scope Spec_Run Spec_Props Proof_Eval Proof_Props2 Proof_SafeMain.
Local Open Scope nat_scope.

(** What the names ending in _partial mean here.  The properties speak of every pattern that compiles.  The
    theorems suppose [supported p]: names are used in the grammar that defines them and not redefined below it,
    a grammar defines a name once, and every Any is Any(1); and [check_ok]: a checker does not skip past the end
    of the input.  The theorems about [wide] patterns allow Any(n) where it is not the start of a choice, on
    texts of one chunk.  Without the condition on Any they are false of the code: C08_any_refuted and
    C08_any_long_refuted.  Without the conditions on names they are false too: C08_shadow_refuted and
    C08_search_refuted.  (A Go map has a name once, so that condition is no restriction.)  Missing: redefined names and
    Any(n) in the places where the code happens to be right. *)

(** C08: if the semantics of PEGs gives the pattern a result on the input, the machine stops with that
    result: a match with its end, no match, or an abort.  The machine has no other result. *)
Theorem C08_match_partial : forall bufsz CS check s thr p code (cs0 : CS) j ts w',
  0 < bufsz -> check_ok check s -> supported p -> compiled thr p code ->
  peg s check [] p 0 ([], cs0) (RSucc j ts) w' ->
  exists f o st, vm_exec bufsz none_table check None f code s tt cs0 = Some (ROk o st) /\ o_ok o = true /\ o_pos o = j.
Proof.
  intros bufsz CS check s thr p code cs0 j ts [errs cs'] Hb Hk Hp Hc H.
  destruct (exec_some bufsz Hb CS check s Hk thr p code None cs0 _ _ _ Hp Hc H) as (f & o & st & H1 & (H2 & H3 & _) & _). exists f, o, st. auto.
Qed.
Print Assumptions C08_match_partial.
Theorem C08_no_match_partial : forall bufsz CS check s thr p code (cs0 : CS) w',
  0 < bufsz -> check_ok check s -> supported p -> compiled thr p code ->
  peg s check [] p 0 ([], cs0) RFail w' ->
  exists f o st, vm_exec bufsz none_table check None f code s tt cs0 = Some (ROk o st) /\ o_ok o = false.
Proof.
  intros bufsz CS check s thr p code cs0 [errs cs'] Hb Hk Hp Hc H.
  destruct (exec_some bufsz Hb CS check s Hk thr p code None cs0 _ _ _ Hp Hc H) as (f & o & st & H1 & (H2 & _) & _). exists f, o, st. auto.
Qed.
Print Assumptions C08_no_match_partial.
Theorem C08_result_partial : forall bufsz CS check s thr p code intrvl (cs0 : CS) r errs cs' f y,
  0 < bufsz -> check_ok check s -> supported p -> compiled thr p code ->
  peg s check [] p 0 ([], cs0) r (errs, cs') ->
  vm_exec bufsz none_table check intrvl f code s tt cs0 = Some y ->
  exists o st, y = ROk o st /\ agrees intrvl r o /\ o_errs o = errs /\ m_cs st = cs'.
Proof. intros bufsz CS check s thr p code intrvl cs0 r errs cs' f y Hb Hk. exact (exec_is bufsz Hb CS check s Hk thr p code intrvl cs0 r errs cs' f y). Qed.
Print Assumptions C08_result_partial.
(** if the semantics gives no result (an endless repetition or recursion) the machine runs forever; so
    whenever the machine stops there cannot be no result *)
Theorem C08_forever_partial : forall bufsz CS check s thr p code intrvl (cs0 : CS),
  0 < bufsz -> check_ok check s -> supported p -> compiled thr p code ->
  (forall r w', ~ peg s check [] p 0 ([], cs0) r w') ->
  forall f, vm_exec bufsz none_table check intrvl f code s tt cs0 = None.
Proof. intros bufsz CS check s thr p code intrvl cs0 Hb Hk. exact (exec_forever bufsz Hb CS check s Hk thr p code intrvl cs0). Qed.
Print Assumptions C08_forever_partial.
Theorem C08_only_partial : forall bufsz CS check s thr p code intrvl (cs0 : CS) f y,
  0 < bufsz -> check_ok check s -> supported p -> compiled thr p code ->
  vm_exec bufsz none_table check intrvl f code s tt cs0 = Some y ->
  ~ ~ exists r w', peg s check [] p 0 ([], cs0) r w'.
Proof. intros bufsz CS check s thr p code intrvl cs0 f y Hb Hk. exact (exec_only bufsz Hb CS check s Hk thr p code intrvl cs0 f y). Qed.
Print Assumptions C08_only_partial.

(** sums of numbers and parenthesized sums, with captures, a lookahead and an error with recovery *)
Definition ex_p : pattern :=
  PGrammar
    [("Sum"%string, PCap (PSeq (PNonTerm "Item" None) (PStar (PSeq (PLit [x2b]) (PNonTerm "Item" None)))) 1);
     ("Item"%string, p_or [PNonTerm "Num" None; p_concat [PLit [x28]; PNonTerm "Sum" None; PAlt (PLit [x29]) (PError "no )" (Some PEmpty))]]);
     ("Num"%string, PCap (PSeq (PPlus (PClass (cs_range x30 x39))) (PNot (PLit [x2e]))) 2)] "Sum".
Definition no_check (k : nat) (cs : unit) (m s : list byte) (i : nat) (id fl : Z) : unit * option nat := (cs, None).
Example ex_ok : supported ex_p /\ (exists code, compiled 100 ex_p code) /\ forall s, check_ok no_check s.
Proof.
  split; [split; [|split]|split].
  - vm_compute. tauto.
  - vm_compute. repeat split; repeat constructor; intro H; repeat (destruct H as [H|H]; [discriminate H|]); destruct H.
  - vm_compute. tauto.
  - eexists. exists 50, (CState 0 0). do 2 eexists. split; [vm_compute; reflexivity|vm_compute; reflexivity].
  - intros s k cs bs j id fl cs' n H. discriminate.
Qed.
(** "1+(23+4" *)
Example ex_result : peg [x31; x2b; x28; x32; x33; x2b; x34] no_check [] ex_p 0 ([], tt)
  (RSucc 7 [CNode 1 0 7 [CNode 2 0 1 []; CNode 1 3 4 [CNode 2 3 2 []; CNode 2 6 1 []]]]) ([(7, "no )"%string)], tt).
Proof. eapply (eval_sound _ _ _ 20). vm_compute. reflexivity. Qed.
Example ex_no_result : forall w r w', ~ peg [] no_check [] (PStar PEmpty) 0 w r w'.
Proof.
  intros w r w' H. remember (PStar PEmpty) as p eqn:Ep. induction H; try discriminate; injection Ep as ->; repeat match goal with H : peg _ _ _ PEmpty _ _ _ _ |- _ => inversion H; subst; clear H end; auto.
Qed.
(** The condition on Any is needed: Or(Any(2), Literal("a")) matches "a" but the machine says no. *)
Theorem C08_any_refuted : exists p code s,
  well_scoped p /\ unique_defs p /\ compiled 100 p code /\
  peg s no_check [] p 0 ([], tt) (RSucc 1 []) ([], tt) /\
  exists f o st, vm_exec (N.to_nat 4096) none_table no_check None f code s tt tt = Some (ROk o st) /\ o_ok o = false.
Proof.
  exists (p_or [PDot x02; PLit [x61]]). eexists. exists [x61]. split; [vm_compute; tauto|]. split; [vm_compute; tauto|].
  split; [exists 10, (CState 0 0); do 2 eexists; split; [vm_compute; reflexivity|vm_compute; reflexivity]|].
  split; [eapply (eval_sound _ _ _ 5); vm_compute; reflexivity|].
  exists 10. do 2 eexists. split; [vm_compute; reflexivity|reflexivity].
Qed.
Print Assumptions C08_any_refuted.
(** The conditions on names are needed.  S <- Grammar(X; X <- A; A <- "b"), A <- "a": the inner A is "b", but the outer
    definition is inlined, and the machine matches "a". *)
Theorem C08_shadow_refuted : exists p code s,
  unique_defs p /\ any_one p /\ compiled 100 p code /\
  peg s no_check [] p 0 ([], tt) RFail ([], tt) /\
  exists f o st, vm_exec (N.to_nat 4096) none_table no_check None f code s tt tt = Some (ROk o st) /\ o_ok o = true /\ o_pos o = 1.
Proof.
  exists (PGrammar [("S"%string, PGrammar [("X"%string, PNonTerm "A" None); ("A"%string, PLit [x62])] "X"); ("A"%string, PLit [x61])] "S").
  eexists. exists [x61]. split; [vm_compute; repeat split; repeat constructor; intro H; repeat (destruct H as [H|H]; [discriminate H|]); destruct H|]. split; [vm_compute; tauto|].
  split; [exists 20, (CState 0 0); do 2 eexists; split; [vm_compute; reflexivity|vm_compute; reflexivity]|].
  split; [eapply (eval_sound _ _ _ 10); vm_compute; reflexivity|].
  exists 30. do 2 eexists. split; [vm_compute; reflexivity|split; reflexivity].
Qed.
Print Assumptions C08_shadow_refuted.
(** S <- "a" / "b" Search("c" S): Search is compiled as a grammar with the name S, which takes the place of the S of the
    user, and the machine does not match "bca". *)
Theorem C08_search_refuted : exists p code s,
  unique_defs p /\ any_one p /\ compiled 100 p code /\
  peg s no_check [] p 0 ([], tt) (RSucc 3 []) ([], tt) /\
  exists f o st, vm_exec (N.to_nat 4096) none_table no_check None f code s tt tt = Some (ROk o st) /\ o_ok o = false.
Proof.
  exists (PGrammar [("S"%string, PAlt (PLit [x61]) (PSeq (PLit [x62]) (PSearch (PSeq (PLit [x63]) (PNonTerm "S" None)))))] "S").
  eexists. exists [x62; x63; x61]. split; [vm_compute; repeat split; repeat constructor; intro H; repeat (destruct H as [H|H]; [discriminate H|]); destruct H|]. split; [vm_compute; tauto|].
  split; [exists 20, (CState 0 0); do 2 eexists; split; [vm_compute; reflexivity|vm_compute; reflexivity]|].
  split; [eapply (eval_sound _ _ _ 20); vm_compute; reflexivity|].
  exists 100. do 2 eexists. split; [vm_compute; reflexivity|reflexivity].
Qed.
Print Assumptions C08_search_refuted.

(** With Any(n), n > 1, the results are right on texts that fit in one chunk (4096 bytes), if no
    choice starts with Any(n), so that the optimizer makes no test instruction of it. *)
Theorem C08_wide_partial : forall bufsz CS check s thr p code intrvl (cs0 : CS) r errs cs',
  0 < bufsz -> check_ok check s -> compiled_wide thr bufsz s p code ->
  peg s check [] p 0 ([], cs0) r (errs, cs') ->
  (exists f y, vm_exec bufsz none_table check intrvl f code s tt cs0 = Some y) /\
  forall f y, vm_exec bufsz none_table check intrvl f code s tt cs0 = Some y ->
    exists o st, y = ROk o st /\ agrees intrvl r o /\ o_errs o = errs /\ m_cs st = cs'.
Proof. intros bufsz CS check s thr p code intrvl cs0 r errs cs' Hb Hk. exact (wide_is bufsz Hb CS check s Hk thr p code intrvl cs0 r errs cs'). Qed.
Print Assumptions C08_wide_partial.
Theorem C08_wide_forever_partial : forall bufsz CS check s thr p code intrvl (cs0 : CS),
  0 < bufsz -> check_ok check s -> compiled_wide thr bufsz s p code ->
  (forall r w', ~ peg s check [] p 0 ([], cs0) r w') ->
  forall f, vm_exec bufsz none_table check intrvl f code s tt cs0 = None.
Proof. intros bufsz CS check s thr p code intrvl cs0 Hb Hk. exact (wide_forever bufsz Hb CS check s Hk thr p code intrvl cs0). Qed.
Print Assumptions C08_wide_forever_partial.
(** Cap("x" Any(3) "y"?) inside a repetition: the capture starts before the bytes that are skipped *)
Definition ex_wide : pattern :=
  PSeq (PStar (PSeq (PCap (p_concat [PLit [x78]; PDot x03; POpt (PLit [x79])]) 1) (PLit [x3b]))) (PAlt (PCap (PSeq (PLit [x7a]) (PDot x02)) 2) PEmpty).
Example ex_wide_ok : exists code, compiled_wide 100 (N.to_nat 4096) [x78; x61; x62; x63; x79; x3b; x7a; x61; x62] ex_wide code.
Proof.
  eexists. exists 50, (CState 0 0). do 2 eexists. split; [vm_compute; reflexivity|]. split; [vm_compute; reflexivity|].
  split; [vm_compute; tauto|]. split; [vm_compute; tauto|]. split; [cbn; repeat split; discriminate|]. split; [apply Nat.leb_le; reflexivity|].
  intros n l H. cbn in H. repeat (destruct H as [H|H]; [discriminate H|]). destruct H.
Qed.
Example ex_wide_result : peg [x78; x61; x62; x63; x79; x3b; x7a; x61; x62] no_check [] ex_wide 0 ([], tt) (RSucc 9 [CNode 1 0 5 []; CNode 2 6 3 []]) ([], tt).
Proof. eapply (eval_sound _ _ _ 20). vm_compute. reflexivity. Qed.
(** on longer texts it can go wrong: 4095 times "x", then Any(2) and "b", with chunks of 4096 bytes *)
Theorem C08_any_long_refuted : exists p code s,
  well_scoped p /\ unique_defs p /\ any_pos p /\ compiled 100 p code /\
  peg s no_check [] p 0 ([], tt) (RSucc (N.to_nat 4098) []) ([], tt) /\
  exists f o st, vm_exec (N.to_nat 4096) none_table no_check None f code s tt tt = Some (ROk o st) /\ o_ok o = false.
Proof.
  exists (p_concat [PStar (PLit [x78]); PDot x02; PLit [x62]]). eexists. exists (repeat x78 (N.to_nat 4095) ++ [x61; x61; x62]). split; [vm_compute; tauto|]. split; [vm_compute; tauto|].
  split; [cbn; repeat split; discriminate|].
  split; [exists 10, (CState 0 0); do 2 eexists; split; [vm_compute; reflexivity|vm_compute; reflexivity]|].
  split; [eapply (eval_sound _ _ _ (N.to_nat 4200)); vm_compute; reflexivity|].
  exists (N.to_nat 9000). do 2 eexists. split; [vm_compute; reflexivity|reflexivity].
Qed.
Print Assumptions C08_any_long_refuted.

(** C09: on a match the captures returned are those of the semantics, in which internal grouping nodes
    do not show, and nothing is captured without a match. *)
Theorem C09_captures_partial : forall bufsz CS check s thr p code (cs0 : CS) r w' f o st,
  0 < bufsz -> check_ok check s -> supported p -> compiled thr p code ->
  peg s check [] p 0 ([], cs0) r w' ->
  vm_exec bufsz none_table check None f code s tt cs0 = Some (ROk o st) ->
  match r with
  | RSucc j ts => exists c, o_capt o = Some c /\ flat1 c = ts
  | RFail => o_capt o = None
  | RAbort _ => True
  end.
Proof.
  intros bufsz CS check s thr p code cs0 r [errs cs'] f o st Hb Hk Hp Hc H Hx.
  destruct (exec_is bufsz Hb CS check s Hk thr p code None cs0 _ _ _ _ _ Hp Hc H Hx) as (o1 & st1 & E & A & _). injection E as <- <-.
  destruct r; [apply A|apply A|exact I].
Qed.
Print Assumptions C09_captures_partial.

(** the same with Any(n) on short texts *)
Theorem C09_wide_partial : forall bufsz CS check s thr p code (cs0 : CS) j ts w' f o st,
  0 < bufsz -> check_ok check s -> compiled_wide thr bufsz s p code ->
  peg s check [] p 0 ([], cs0) (RSucc j ts) w' ->
  vm_exec bufsz none_table check None f code s tt cs0 = Some (ROk o st) ->
  exists c, o_capt o = Some c /\ flat1 c = ts.
Proof.
  intros bufsz CS check s thr p code cs0 j ts [errs cs'] f o st Hb Hk Hp H Hx.
  destruct (proj2 (wide_is bufsz Hb CS check s Hk thr p code None cs0 _ _ _ Hp H) _ _ Hx) as (o1 & st1 & E & A & _). injection E as <- <-. apply A.
Qed.
Print Assumptions C09_wide_partial.

(** C10: the errors returned are those of the semantics, in order; an error without recovery ends the
    parse without a match at the position of the error. *)
Theorem C10_errors_partial : forall bufsz CS check s thr p code (cs0 : CS) r errs cs' f o st,
  0 < bufsz -> check_ok check s -> supported p -> compiled thr p code ->
  peg s check [] p 0 ([], cs0) r (errs, cs') ->
  vm_exec bufsz none_table check None f code s tt cs0 = Some (ROk o st) ->
  o_errs o = errs /\ (forall j, r = RAbort j -> o_ok o = false /\ o_pos o = j).
Proof.
  intros bufsz CS check s thr p code cs0 r errs cs' f o st Hb Hk Hp Hc H Hx.
  destruct (exec_is bufsz Hb CS check s Hk thr p code None cs0 _ _ _ _ _ Hp Hc H Hx) as (o1 & st1 & E & A & B & _). injection E as <- <-.
  split; [exact B|]. intros j ->. exact A.
Qed.
Print Assumptions C10_errors_partial.
(** an error with recovery is reported although the path that reported it is abandoned later, and the
    parse continues as the recovery pattern; an error without recovery stops it *)
Definition ex_err : pattern :=
  PAlt (PSeq (PError "first" (Some (PLit [x61]))) (PLit [x62])) (PSeq (PLit [x61]) (PError "second" None)).
Example ex_err_result : supported ex_err /\ peg [x61; x63] no_check [] ex_err 0 ([], tt) (RAbort 1) ([(0, "first"%string); (1, "second"%string)], tt).
Proof. split; [vm_compute; tauto|]. eapply (eval_sound _ _ _ 20). vm_compute. reflexivity. Qed.

(** C14: a compiled program never makes the machine panic: any pattern, any input, any memoization table, any
    checkers, any interval, any number of steps. *)
Theorem C14_no_panic : forall bufsz T (ops : table_ops T) CS check intrvl thr p code s t (cs0 : CS) f,
  0 < bufsz -> compiled thr p code ->
  vm_exec bufsz ops check intrvl f code s t cs0 <> Some RCrash.
Proof. exact exec_never. Qed.
Print Assumptions C14_no_panic.
(** a pattern outside of [supported]: a redefined name, a memoized repetition in a checked recursive rule, Any(2) *)
Definition ex_wild : pattern :=
  PGrammar [("A"%string, PCheck (PStar (PMemo (PAlt (PDot x02) (PCap (PSeq (PLit [x61]) (POpt (PNonTerm "A" None))) 1%Z)) 7%Z)) 0 0%Z 0%Z);
            ("B"%string, PGrammar [("A"%string, PSeq (PNot (PLit [x62])) (PNonTerm "A" None))] "A")] "A".
Example ex_wild_compiles : exists code, compiled 0 ex_wild code.
Proof.
  assert (E : match compile 0 20 ex_wild (CState 0 0) with COk c _ => encode c <> None | _ => False end) by (vm_compute; discriminate).
  destruct (compile 0 20 ex_wild (CState 0 0)) as [c st| | |] eqn:Ec; try contradiction. destruct (encode c) as [code|] eqn:Ee; [|congruence].
  exists code, 20, (CState 0 0), c, st. split; assumption.
Qed.
(** there are programs that do: a return without a call, a jump outside *)
Example ex_panic : exists c, encode [IReturn] = Some c /\ vm_exec 4 none_table no_check None 1 c [] tt tt = Some RCrash.
Proof. eexists. split; reflexivity. Qed.

(** C20: the order of the definitions of a grammar (Go's iteration order over the map), at any depth,
    has no influence on the match, the captures, the errors or the state of the checkers. *)
Theorem C20_order_partial : forall bufsz CS check s thr p q code code' (cs0 : CS),
  0 < bufsz -> check_ok check s -> reorder p q -> supported p -> supported q -> compiled thr p code -> compiled thr q code' ->
  (forall r w', peg s check [] p 0 ([], cs0) r w' ->
   exists f o st g o' st', vm_exec bufsz none_table check None f code s tt cs0 = Some (ROk o st) /\
     vm_exec bufsz none_table check None g code' s tt cs0 = Some (ROk o' st') /\ same_outcome o o' /\ m_cs st = m_cs st') /\
  ((forall r w', ~ peg s check [] p 0 ([], cs0) r w') ->
   forall f, vm_exec bufsz none_table check None f code s tt cs0 = None /\ vm_exec bufsz none_table check None f code' s tt cs0 = None).
Proof. exact order_spec. Qed.
Print Assumptions C20_order_partial.
Definition ex_a : pattern := PSeq (PLit [x61]) (POpt (PNonTerm "B" None)).
Definition ex_b : pattern := PSeq (PLit [x62]) (POpt (PNonTerm "A" None)).
Example ex_order :
  let p := PGrammar [("A"%string, ex_a); ("B"%string, ex_b)] "A" in
  let q := PGrammar [("B"%string, ex_b); ("A"%string, ex_a)] "A" in
  reorder p q /\ (exists code, compiled 2 p code) /\ (exists code, compiled 2 q code).
Proof.
  cbv zeta. split; [|split].
  - apply (ro_gram _ [("B"%string, ex_b); ("A"%string, ex_a)]); [|apply perm_swap|constructor; [|constructor; [|constructor]]; (split; [reflexivity|apply ro_refl])].
    constructor; [intros [H|[]]; discriminate H|]. constructor; [intros []|constructor].
  - eexists. exists 50, (CState 0 0). do 2 eexists. split; [vm_compute; reflexivity|vm_compute; reflexivity].
  - eexists. exists 50, (CState 0 0). do 2 eexists. split; [vm_compute; reflexivity|vm_compute; reflexivity].
Qed.

(** C37: ExecInterval gives the same match, end and errors as Exec and those captures of Exec that overlap
    the interval. *)
Theorem C37_interval : forall bufsz CS check s thr p code (cs0 : CS) lo hi f o st g o' st',
  0 < bufsz -> check_ok check s -> supported p -> compiled thr p code ->
  vm_exec bufsz none_table check None f code s tt cs0 = Some (ROk o st) ->
  vm_exec bufsz none_table check (Some (lo, hi)) g code s tt cs0 = Some (ROk o' st') ->
  o_ok o = o_ok o' /\ o_errs o = o_errs o' /\
  (o_ok o = true -> o_pos o = o_pos o' /\
    option_map flat1 (o_capt o') = option_map (fun c => flat_map (clip1 lo hi) (flat1 c)) (o_capt o)).
Proof. intros bufsz CS check s thr p code cs0 lo hi f o st g o' st' Hb Hk. exact (exec_clip bufsz Hb CS check s Hk thr p code cs0 lo hi f o st g o' st'). Qed.
Print Assumptions C37_interval.
Example ex_clip : flat_map (clip1 4 5) [CNode 1 0 7 [CNode 2 0 1 []; CNode 1 3 4 [CNode 2 3 2 []; CNode 2 6 1 []]]] =
  [CNode 1 0 7 [CNode 1 3 4 [CNode 2 3 2 []]]].
Proof. reflexivity. Qed.
