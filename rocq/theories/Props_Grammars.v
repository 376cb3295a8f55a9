(** Property C44: the grammars in the directory grammars. *)
From Coq Require Import ZArith String.
From Verif Require Import Base Model_Charset Model_Isa Model_Capture Model_Input Model_Code Model_VM Model_Pattern Model_Re Model_Grammars Spec_Peg Spec_Scope Spec_Run Spec_Wf Spec_Re Spec_Grammars Spec_GrammarSize Spec_Thresholds Proof_Props2 Proof_Props3 Proof_Grammars Proof_GrammarSize Proof_Thresholds Proof_Shipped Props_Compile Props_Wf.
Local Open Scope nat_scope.

(** [accepted s good]: the text [s] is a grammar for package re, whatever the buffer and the inline threshold for the
    parser of package re are; and the patterns that Compile and CompileCap give are [good] *)
Definition accepted (s : list byte) (good : pattern -> Prop) : Prop :=
  forall bufsz CS check thr code (cs0 : CS), 0 < bufsz -> check_ok check s -> compiled thr re_grammar code ->
  exists f o st, vm_exec bufsz none_table check None f code s tt cs0 = Some (ROk o st) /\
    forall capg, exists p m, re_compile s capg o 0 = RePattern p m /\ good p.
(** Compile gives no error; and Exec of the compiled pattern stops on every input, with the result that the
    semantics of the pattern gives *)
Definition stops (thr : nat) (p : pattern) : Prop :=
  (forall st, exists F c st', forall fuel, F <= fuel -> compile thr fuel p st = COk c st') /\
  forall pcode bufsz CS check intrvl (t : list byte) (cs : CS), compiled thr p pcode -> 0 < bufsz -> check_ok check t ->
    exists f o st r w, vm_exec bufsz none_table check intrvl f pcode t tt cs = Some (ROk o st) /\
      peg t check [] p 0 ([], cs) r w /\ agrees intrvl r o.
(** C44: there is a fast check for texts, and the shipped grammars pass it, so they are accepted, and parsing with
    them always stops. *)
Theorem C44_check_partial : forall s, light_check s = true -> accepted s (fun p => forall thr, stops thr p).
Proof.
  intros s H bufsz CS0 check0 thr0 code cs0 Hb Hk0 Hc. destruct (light_check_ok s H bufsz CS0 check0 thr0 code cs0 Hb Hk0 Hc) as (l & rest & f & o & st & _ & H1 & H2). exists f, o, st. split; [exact H1|].
  intro capg. destruct (H2 capg) as (P1 & P2 & P3 & P4). eexists. eexists. split; [exact P1|]. intro thr. split.
  - intro st0. destruct (C16_success thr _ st0 P4) as (F & c & st' & E & _). eauto.
  - intros pcode bufsz' CS check intrvl t cs Hpc Hb' Hk. exact (C15_exec_partial bufsz' CS check t thr _ pcode intrvl cs Hb' Hk P2 P3 Hpc).
Qed.
Print Assumptions C44_check_partial.
Theorem C44_shipped_partial : Forall (fun s => accepted s (fun p => forall thr, stops thr p)) shipped.
Proof. eapply Forall_impl; [exact C44_check_partial|exact shipped_light]. Qed.
Print Assumptions C44_shipped_partial.
(** a second fast check shows that the program fits into the bytecode, so that Encode does not panic *)
Theorem C44_encodes : forall thr n s, light_check s = true -> text_fits thr n s = true -> accepted s (fun p => stops thr p /\ exists pcode, compiled thr p pcode).
Proof.
  intros thr n s H B bufsz CS0 check0 thr0 code cs0 Hb Hk0 Hc. unfold text_fits in B.
  destruct (light_check_ok s H bufsz CS0 check0 thr0 code cs0 Hb Hk0 Hc) as (l & rest & f & o & st & Hr & H1 & H2). exists f, o, st. split; [exact H1|]. rewrite Hr in B. rewrite forallb_forall in B.
  intro capg. destruct (H2 capg) as (P1 & P2 & P3 & P4). eexists. eexists. split; [exact P1|]. split; [split|].
  - intro st0. destruct (C16_success thr _ st0 P4) as (F & c & st' & E & _). eauto.
  - intros pcode bufsz' CS check intrvl t cs Hpc Hb' Hk. exact (C15_exec_partial bufsz' CS check t thr _ pcode intrvl cs Hb' Hk P2 P3 Hpc).
  - apply (fits_compiled thr n _ (snd (denote_defs l 0))); [apply B; destruct capg; cbn; auto|exact P4].
Qed.
Print Assumptions C44_encodes.
(** The program depends on the inline threshold, but there are only finitely many programs.  A check that goes through
    them covers every value to which a user may set the threshold, *)
Theorem C44_every : forall steps n s, light_check s = true -> text_fits_any steps n s = true ->
  accepted s (fun p => forall thr, stops thr p /\ exists pcode, compiled thr p pcode).
Proof.
  intros steps n s H B bufsz CS0 check0 thr0 code cs0 Hb Hk0 Hc. pose proof (fun thr => text_fits_from steps n s thr B) as B'. unfold text_fits in B'.
  destruct (light_check_ok s H bufsz CS0 check0 thr0 code cs0 Hb Hk0 Hc) as (l & rest & f & o & st & Hr & H1 & H2). exists f, o, st. split; [exact H1|]. rewrite Hr in B'.
  intro capg. destruct (H2 capg) as (P1 & P2 & P3 & P4). eexists. eexists. split; [exact P1|]. intro thr. specialize (B' thr). rewrite forallb_forall in B'. split; [split|].
  - intro st0. destruct (C16_success thr _ st0 P4) as (F & c & st' & E & _). eauto.
  - intros pcode bufsz' CS check intrvl t cs Hpc Hb' Hk. exact (C15_exec_partial bufsz' CS check t thr _ pcode intrvl cs Hb' Hk P2 P3 Hpc).
  - apply (fits_compiled thr n _ (snd (denote_defs l 0))); [apply B'; destruct capg; cbn; auto|exact P4].
Qed.
Print Assumptions C44_every.
(** and the shipped grammars pass it *)
Theorem C44_shipped : Forall (fun s => accepted s (fun p => forall thr, stops thr p /\ exists pcode, compiled thr p pcode)) shipped.
Proof.
  apply Forall_forall. intros s Hs. apply (C44_every 100 100); [exact (proj1 (Forall_forall _ _) shipped_light s Hs)|exact (proj1 (Forall_forall _ _) shipped_fits s Hs)].
Qed.
Print Assumptions C44_shipped.
(** in particular for the threshold 100 that package pattern has unless a user changes it *)
Theorem C44_default : Forall (fun s => accepted s (fun p => stops 100 p /\ exists pcode, compiled 100 p pcode)) shipped.
Proof.
  apply Forall_forall. intros s Hs. apply (C44_encodes 100 100); [exact (proj1 (Forall_forall _ _) shipped_light s Hs)|apply (text_fits_from 100), (proj1 (Forall_forall _ _) shipped_fits s Hs)].
Qed.
Print Assumptions C44_default.
(** json.peg leads to eleven programs; from 62 on, the threshold makes no difference *)
Definition json_defs : list (string * pattern) :=
  match read json_peg with Yes (TGrammar l) _ => match grammar_of true l with PGrammar d _ => d | _ => [] end | _ => [] end.
Fixpoint borders (steps thr : nat) (d : list (string * pattern)) : list nat :=
  match steps with
  | O => []
  | S steps => thr :: match snd (border thr (S (count_open d)) d) with None => [] | Some k => borders steps (S k) d end
  end.
Example ex_borders : borders 100 0 json_defs = [0; 3; 4; 6; 8; 9; 11; 17; 34; 46; 62].
Proof. vm_compute. reflexivity. Qed.
(** with few steps the check does not cover all thresholds, and says so *)
Example ex_few : text_fits_any 10 100 json_peg = false /\ text_fits_any 11 100 json_peg = true.
Proof. vm_compute. auto. Qed.
(** the check refuses texts that are no grammars, left recursion, undefined names and endless repetitions *)
Example ex_refused : map (fun t => light_check (list_byte_of_string t))
  ["A <- 'a' A / B"; "A <- ("; "A <- B 'a'
B <- C* A
C <- 'c'"; "A <- ('a'?)*"; "A <- 'a' A / 'b'"]%string = [false; false; false; false; true].
Proof. vm_compute. reflexivity. Qed.
