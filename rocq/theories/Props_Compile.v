(** Property C16: Compile terminates and reports unresolved non-terminals. *)
From Verif Require Import Base Model_Charset Model_Isa Model_Capture Model_VM Model_Pattern Model_Code Spec_Peg Spec_Scope Proof_Term.
Local Open Scope nat_scope.

(** C16: for every pattern, whether well-formed or not, Compile ends: from some depth of recursion on the model does
    not run out of fuel, and the result is the same. *)
Theorem C16_terminates : forall thr p st, exists F r, r <> CFuel /\ forall fuel, F <= fuel -> compile thr fuel p st = r.
Proof. exact compile_terminates. Qed.
Print Assumptions C16_terminates.
(** the calls left unresolved in the result are those of non-terminals outside of all grammars *)
Theorem C16_resolved : forall thr fuel p st c st' x, compile thr fuel p st = COk c st' -> In (IOpenCall x) c -> In x (call_nts p).
Proof. exact compile_open_calls. Qed.
Print Assumptions C16_resolved.
(** a not-found error names a non-terminal that some grammar or search in the pattern uses and does not define *)
Theorem C16_notfound : forall thr fuel p st x, compile thr fuel p st = CNotFound x -> undefined x p.
Proof. intros thr fuel p st x H. pose proof (compile_errors thr fuel p st) as E. rewrite H in E. exact E. Qed.
Print Assumptions C16_notfound.
(** Compile panics only on a pattern with an undefined name *)
Theorem C16_panic : forall thr fuel p st, compile thr fuel p st = CNilPanic -> exists x, undefined x p.
Proof. intros thr fuel p st H. pose proof (compile_errors thr fuel p st) as E. rewrite H in E. exact E. Qed.
Print Assumptions C16_panic.
(** so a pattern in which every name is defined compiles *)
Theorem C16_success : forall thr p st, (forall x, ~ undefined x p) ->
  exists F c st', (forall fuel, F <= fuel -> compile thr fuel p st = COk c st') /\ forall x, In (IOpenCall x) c -> In x (call_nts p).
Proof.
  intros thr p st H. destruct (compile_terminates thr p st) as (F & r & H1 & H2). pose proof (compile_errors thr F p st) as E. rewrite (H2 F (le_n _)) in E.
  destruct r as [c st'|x| |]; cbn [explains] in E.
  - exists F, c, st'. split; [exact H2|]. intros x. eapply compile_open_calls. exact (H2 F (le_n _)).
  - destruct (H x E).
  - destruct E as (x & E). destruct (H x E).
  - destruct (H1 eq_refl).
Qed.
Print Assumptions C16_success.

(** a grammar with mutual recursion, a search and inlining *)
Definition ex_g : pattern :=
  PGrammar [("A"%string, PAlt (PSeq (PLit [x61]) (PNonTerm "B" None)) (PSearch (PLit [x63])));
            ("B"%string, PSeq (PNonTerm "A" None) (PNonTerm "C" None)); ("C"%string, PLit [x64])] "A".
Example ex_defined : forall x, ~ undefined x ex_g.
Proof.
  intros x H. cbn in H. destruct H as [(H1 & H2)|H]; [|tauto]. apply H1. destruct H2 as [->|(k & d & Hin & Hx)]; [auto|].
  destruct Hin as [E|[E|[E|[]]]]; injection E as <- <-; cbn in Hx; tauto.
Qed.
(** B is not defined *)
Definition ex_u : pattern := PGrammar [("A"%string, PAlt (PSeq (PLit [x61]) (PNonTerm "B" None)) (PLit [x63]))] "A".
Example ex_undefined : compile 100 20 ex_u (CState 0 0) = CNotFound "B". Proof. vm_compute. reflexivity. Qed.
(** an undefined start makes the compiler call a method of nil *)
Example ex_nil : compile 100 20 (PGrammar [("A"%string, PLit [x61])] "B") (CState 0 0) = CNilPanic. Proof. vm_compute. reflexivity. Qed.

(** A name that the enclosing grammar defines can be reported as not found: in a search, or in a grammar inside
    the grammar, a recursive definition of the enclosing grammar cannot be used. *)
Theorem C16_scope_refuted :
  let x := ("X"%string, PAlt (PSeq (PLit [x61]) (PNonTerm "X" None)) (PLit [x62])) in
  (forall fuel, 20 <= fuel -> compile 100 fuel (PGrammar [("S"%string, PSearch (PNonTerm "X" None)); x] "S") (CState 0 0) = CNotFound "X") /\
  (forall fuel, 20 <= fuel -> compile 100 fuel (PGrammar [("S"%string, PGrammar [("T"%string, PNonTerm "X" None)] "T"); x] "S") (CState 0 0) = CNotFound "X") /\
  exists c st, compile 100 20 (PGrammar [("S"%string, PNonTerm "X" None); x] "S") (CState 0 0) = COk c st.
Proof.
  cbv zeta. split; [|split].
  - intros fuel H. do 20 (destruct fuel as [|fuel]; [lia|]). vm_compute. reflexivity.
  - intros fuel H. do 20 (destruct fuel as [|fuel]; [lia|]). vm_compute. reflexivity.
  - do 2 eexists. vm_compute. reflexivity.
Qed.
Print Assumptions C16_scope_refuted.
