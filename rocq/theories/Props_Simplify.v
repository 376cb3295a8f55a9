(** Properties C12 and C13: simplification of patterns and inlining of non-terminals. *)
From Verif Require Import Base Model_Charset Model_Isa Model_Capture Model_VM Model_Pattern Spec_Peg Spec_Scope Proof_Eval Proof_Get Proof_Inline.
Local Open Scope nat_scope.

(** C12: a pattern and its simplified form match the same inputs in the same way, in every scope,
    at every position, with the same end, captures, errors and checker calls. *)
Theorem C12_get : forall s CS check E p i w r w',
  peg s (CS:=CS) check E (get p) i w r w' <-> peg s check E p i w r w'.
Proof. intros. apply get_peg. Qed.
Print Assumptions C12_get.

(** the recursion bound in the model of Get is never reached: more fuel gives the same pattern *)
Theorem C12_fuel : forall p f, psize p <= f -> get_f f p = get p.
Proof. intros p f H. apply get_fuel_enough; [exact H|apply le_n]. Qed.
Print Assumptions C12_fuel.

(** the simplifications really happen: !"a" . is a set, an alternative of characters is a set *)
Example ex_get1 : get (PSeq (PNot (PLit [x61])) (PDot x01)) = PClass (cs_compl (cs_new [x61])).
Proof. reflexivity. Qed.
Example ex_get2 : get (PAlt (PLit [x61]) (PAlt (PLit [x62]) (PLit [x63]))) = PClass (cs_add (cs_new [x62; x63]) (cs_new [x61])).
Proof. reflexivity. Qed.
Example ex_get3 : get (PAlt (PStar (PLit [x61])) PEmpty) = PStar (PLit [x61]).
Proof. reflexivity. Qed.

(** C13: inlining, with any threshold, changes the result of no non-terminal of a well-scoped grammar *)
Theorem C13_inline_partial : forall s CS check thr E defs start i w r w',
  well_scoped (PGrammar defs start) ->
  (peg s (CS:=CS) check E (PGrammar (inline_all thr defs) start) i w r w' <->
   peg s check E (PGrammar defs start) i w r w').
Proof. intros. apply inline_all_peg. eapply ws_dok; eassumption. Qed.
Print Assumptions C13_inline_partial.

(** the loop [for p.inline() {}] ends: after as many passes as there are open non-terminals nothing
    is left to inline, and further iterations do nothing *)
Theorem C13_terminates : forall thr defs,
  did_inline thr (inline_all thr defs) = false /\
  forall m, count_open defs < m -> inline_n thr m defs = inline_all thr defs.
Proof. intros thr defs. split; [apply inline_all_fix|]. intros m H. apply inline_n_stable; lia. Qed.
Print Assumptions C13_terminates.

Definition ex_defs : frame :=
  [("S"%string, PAlt (PSeq (PNonTerm "D" None) (PNonTerm "S" None)) (PLit [x78]));
   ("D"%string, PClass (cs_range x30 x39))].
Example ex_inline : well_scoped (PGrammar ex_defs "S") /\
  inline_all 100 ex_defs =
  [("S"%string, PAlt (PSeq (PNonTerm "D" (Some (PClass (cs_range x30 x39)))) (PNonTerm "S" None)) (PLit [x78]));
   ("D"%string, PClass (cs_range x30 x39))].
Proof. split; [vm_compute; tauto | vm_compute; reflexivity]. Qed.

(** Without the scoping condition inlining does change meanings: an inner grammar that defines the
    same name again gets the outer definition. *)
Definition shadow_defs : frame :=
  [("S"%string, PGrammar [("X"%string, PNonTerm "A" None); ("A"%string, PLit [x62])] "X");
   ("A"%string, PLit [x61])].
Theorem C13_shadow_refuted : exists s defs,
  peg s (CS:=unit) (fun _ cs _ _ _ _ _ => (cs, None)) [] (PGrammar (inline_all 100 defs) "S") 0 ([], tt) (RSucc 1 []) ([], tt) /\
  ~ peg s (CS:=unit) (fun _ cs _ _ _ _ _ => (cs, None)) [] (PGrammar defs "S") 0 ([], tt) (RSucc 1 []) ([], tt).
Proof.
  exists [x61], shadow_defs. split.
  - eapply (eval_sound _ _ _ 5). vm_compute. reflexivity.
  - intro H. assert (H2 : peg [x61] (CS:=unit) (fun _ cs _ _ _ _ _ => (cs, None)) [] (PGrammar shadow_defs "S") 0 ([], tt) RFail ([], tt)).
    { eapply (eval_sound _ _ _ 5). vm_compute. reflexivity. }
    destruct (peg_det _ _ _ _ _ _ _ _ _ _ _ H H2) as [H3 _]. discriminate.
Qed.
Print Assumptions C13_shadow_refuted.
