(** Property C15: parsing terminates for well-formed patterns. *)
From Verif Require Import Base Model_Charset Model_Isa Model_Capture Model_Input Model_Code Model_VM Model_Pattern Spec_Peg Spec_Scope Spec_Run Spec_Wf Proof_Eval Proof_Wf Proof_Props2 Proof_Props3.
Local Open Scope nat_scope.

(** C15: a well-formed pattern (no repetition of a nullable pattern, no left recursion, all names defined) has a
    result at every position of every input. *)
Theorem C15_total : forall s CS check c i, check_ok check s -> well_formed c -> i <= List.length s ->
  forall w : world CS, exists r w', peg s check (fst c) (snd c) i w r w'.
Proof. intros s CS check c i Hk Hc Hi. exact (wf_total s CS check Hk c i Hc Hi). Qed.
Print Assumptions C15_total.
(** and Exec of the compiled pattern terminates, with that result *)
Theorem C15_exec_partial : forall bufsz CS check s thr p code intrvl (cs0 : CS), 0 < bufsz -> check_ok check s ->
  supported p -> well_formed ([], p) -> compiled thr p code ->
  exists f o st r w', vm_exec bufsz none_table check intrvl f code s tt cs0 = Some (ROk o st) /\
    peg s check [] p 0 ([], cs0) r w' /\ agrees intrvl r o.
Proof.
  intros bufsz CS check s thr p code intrvl cs0 Hb Hk Hp Hw Hc. destruct (wf_total s CS check Hk ([], p) 0 Hw (Nat.le_0_l _) ([], cs0)) as (r & [errs cs'] & HR).
  destruct (exec_some bufsz Hb CS check s Hk thr p code intrvl cs0 r errs cs' Hp Hc HR) as (f & o & st & H1 & H2 & _). exists f, o, st, r, (errs, cs'). auto.
Qed.
Print Assumptions C15_exec_partial.
(** whatever Exec of a well-formed pattern returns is the result of the pattern (C08 without the double negation) *)
Theorem C15_result_partial : forall bufsz CS check s thr p code intrvl (cs0 : CS) f y, 0 < bufsz -> check_ok check s ->
  supported p -> well_formed ([], p) -> compiled thr p code -> vm_exec bufsz none_table check intrvl f code s tt cs0 = Some y ->
  exists o st r, y = ROk o st /\ peg s check [] p 0 ([], cs0) r (o_errs o, m_cs st) /\ agrees intrvl r o.
Proof.
  intros bufsz CS check s thr p code intrvl cs0 f y Hb Hk Hp Hw Hc Hy. destruct (wf_total s CS check Hk ([], p) 0 Hw (Nat.le_0_l _) ([], cs0)) as (r & [errs cs'] & HR).
  destruct (exec_is bufsz Hb CS check s Hk thr p code intrvl cs0 r errs cs' f y Hp Hc HR Hy) as (o & st & H1 & H2 & H3 & H4). exists o, st, r. split; [exact H1|]. split; [|exact H2]. rewrite H3, H4. exact HR.
Qed.
Print Assumptions C15_result_partial.
(** well-formedness can be established by computation *)
Theorem C15_check : forall n p, wf_check n p = true -> well_formed ([], p).
Proof. exact wf_check_sound. Qed.
Print Assumptions C15_check.

(** arithmetic: E <- T ([+-] T)*, T <- F ([*/] F)*, F <- "(" E ")" / [0-9]+ *)
Definition ex_arith : pattern :=
  PGrammar
    [("E"%string, PSeq (PNonTerm "T" None) (PStar (PSeq (PClass (cs_new [x2b; x2d])) (PNonTerm "T" None))));
     ("T"%string, PSeq (PNonTerm "F" None) (PStar (PSeq (PClass (cs_new [x2a; x2f])) (PNonTerm "F" None))));
     ("F"%string, PAlt (p_concat [PLit [x28]; PNonTerm "E" None; PLit [x29]]) (PCap (PPlus (PClass (cs_range x30 x39))) 1))] "E".
Example ex_wf : well_formed ([], ex_arith) /\ supported ex_arith /\ exists code, compiled 100 ex_arith code.
Proof.
  split; [apply (wf_check_sound 20); vm_compute; reflexivity|]. split.
  - split; [vm_compute; tauto|]. split; [|vm_compute; tauto]. vm_compute. split; [|tauto]. repeat constructor; cbn; intuition discriminate.
  - eexists. exists 50, (CState 0 0). do 2 eexists. split; [vm_compute; reflexivity|vm_compute; reflexivity].
Qed.
(** The conditions are needed: the repetition of the empty pattern and a left-recursive grammar run forever. *)
Definition no_check (k : nat) (cs : unit) (m s : list byte) (i : nat) (id fl : Z) : unit * option nat := (cs, None).
Theorem C15_loops : forall s p, p = PStar PEmpty \/ p = PGrammar [("A"%string, PSeq (PNonTerm "A" None) (PLit [x61]))] "A" ->
  (exists code, compiled 100 p code) /\
  forall code f, compiled 100 p code -> vm_exec 4 none_table no_check None f code s tt tt = None.
Proof. exact loops. Qed.
Print Assumptions C15_loops.
