(** Property C55: the listing of a program. *)
From Coq Require Import String.
From Verif Require Import Base Model_Charset Model_Isa Model_Code Model_VM Model_Pattern Model_String Model_Listing Spec_Listing Proof_Charset Proof_Listing Proof_Listing2.
Local Open Scope list_scope.
Local Open Scope nat_scope.

(** C55: programs with the same listing have the same instructions and labels in the same order *)
Theorem C55_instructions_partial : forall quote show, lines quote -> forall p q, Forall listed p -> Forall listed q ->
  prog_string quote show p = prog_string quote show q -> without_nops p = without_nops q.
Proof. exact p_listing. Qed.
Print Assumptions C55_instructions_partial.

(** C55: programs with the same listing are encoded as the same code, or neither can be encoded *)
Theorem C55_code_partial : forall quote show, lines quote -> forall p q, Forall listed p -> Forall listed q ->
  prog_string quote show p = prog_string quote show q -> encode p = encode q.
Proof.
  intros quote show Q p q Lp Lq E. rewrite <- (encode_nops p), <- (encode_nops q).
  rewrite (p_listing quote show Q p q Lp Lq E). reflexivity.
Qed.
Print Assumptions C55_code_partial.

(** C55: so patterns whose programs have the same listing are compiled to the same code *)
Theorem C55_compiled_partial : forall quote show, lines quote ->
  forall thr f p st a st' k thr' f' q st0 b st0' k', shown p -> shown q ->
  compile thr f p st = COk a st' -> encode a = Some k ->
  compile thr' f' q st0 = COk b st0' -> encode b = Some k' ->
  prog_string quote show a = prog_string quote show b -> k = k'.
Proof.
  intros quote show Q thr f p st a st' k thr' f' q st0 b st0' k' Sp Sq Ca Ea Cb Eb E.
  assert (A : Some k = Some k').
  { rewrite <- Ea, <- Eb. apply (C55_code_partial quote show Q); [refine (p_compiled thr f p st a st' Sp Ca _); eauto|refine (p_compiled thr' f' q st0 b st0' Sq Cb _); eauto|exact E]. }
  injection A as A. exact A.
Qed.
Print Assumptions C55_compiled_partial.

(** C55: instructions that do nothing are not in the listing, and not in the code *)
Theorem C55_nops : forall quote show p, prog_string quote show (without_nops p) = prog_string quote show p /\
  encode (without_nops p) = encode p.
Proof.
  intros quote show p. split; [|apply encode_nops]. unfold prog_string. rewrite <- lines_nops. reflexivity.
Qed.
Print Assumptions C55_nops.

(** C55 does not hold of all compiled programs: the identifiers given to a checker are not in the listing, and
    an assertion that is not one of the six is listed as Unknown *)
Theorem C55_check_refuted : exists p q, forall quote show, prog_string quote show p = prog_string quote show q /\ encode p <> encode q /\
  (exists st, compile 100 20 (PCheck (PLit [x61]) 0 1 0) (CState 0 0) = COk p st) /\ (exists st, compile 100 20 (PCheck (PLit [x61]) 0 2 0) (CState 0 0) = COk q st).
Proof.
  exists [ICheckBegin 1 0; IChar x61; ICheckEnd 0; ILabel 1], [ICheckBegin 2 0; IChar x61; ICheckEnd 0; ILabel 1]. intros quote show.
  split; [reflexivity|]. split; [vm_compute; discriminate|]. split; eexists; vm_compute; reflexivity.
Qed.
Print Assumptions C55_check_refuted.
Theorem C55_empty_refuted : exists p q, forall quote show, prog_string quote show p = prog_string quote show q /\ encode p <> encode q /\
  (exists st, compile 100 20 (PEmptyOp x00) (CState 0 0) = COk p st) /\ (exists st, compile 100 20 (PEmptyOp x03) (CState 0 0) = COk q st).
Proof.
  exists [IEmpty x00], [IEmpty x03]. intros quote show.
  split; [reflexivity|]. split; [vm_compute; discriminate|]. split; eexists; vm_compute; reflexivity.
Qed.
Print Assumptions C55_empty_refuted.

(** an instance: a quote that marks each byte *)
Definition ex_quote (s : string) : list byte := flat_map (fun b => if byte_eqb b x0a then [x5c; x6e] else [x3d; b]) (lit s).
Example ex_lines : lines ex_quote.
Proof.
  split.
  - assert (A : forall a b : list byte,
      flat_map (fun b => if byte_eqb b x0a then [x5c; x6e] else [x3d; b]) a =
      flat_map (fun b => if byte_eqb b x0a then [x5c; x6e] else [x3d; b]) b -> a = b).
    { assert (B : forall x, byte_eqb x x0a = true -> x = x0a) by (intro x; destruct x; intro H; [..]; first [reflexivity|discriminate H]).
      induction a as [|x a IH]; intros [|y b] H; cbn [flat_map app] in H; [reflexivity|..].
      - destruct (byte_eqb y x0a); discriminate H.
      - destruct (byte_eqb x x0a); discriminate H.
      - destruct (byte_eqb x x0a) eqn:Ex, (byte_eqb y x0a) eqn:Ey; cbn [app] in H; try discriminate H; injection H.
        + intro H1. rewrite (B _ Ex), (B _ Ey), (IH _ H1). reflexivity.
        + intros H1 ->. rewrite (IH _ H1). reflexivity. }
    intros a b H. apply lit_app_inj, A, H.
  - intros a H. unfold ex_quote in H. apply in_flat_map in H. destruct H as (x & _ & H).
    destruct (byte_eqb x x0a) eqn:E; destruct H as [H|[H|[]]]; try discriminate H.
    subst x. discriminate E.
Qed.

(** the listing of a compiled pattern: a word and a number, remembered *)
Definition ex_patt : pattern :=
  PSeq (PMemo (PCap (PPlus (PClass (cs_range x61 x7a))) (-3)) 12) (PAlt (PLit [xe9; x0a]) (PSeq (POpt (PDot x02)) (PEmptyOp x10))).
Definition ex_prog : program := match compile 100 100 ex_patt (CState 0 0) with COk p _ => p | _ => [] end.
Example ex_shown : shown ex_patt /\ exists st, compile 100 100 ex_patt (CState 0 0) = COk ex_prog st.
Proof.
  split; [|eexists; vm_compute; reflexivity]. unfold ex_patt.
  apply sh_seq; [apply sh_memo, sh_cap, sh_plus, sh_class, cs_range_wf|].
  apply sh_alt; [apply sh_lit|]. apply sh_seq; [apply sh_opt, sh_dot|]. apply sh_assert. cbn [In]. tauto.
Qed.
Example ex_listed : Forall listed ex_prog /\ Exists (fun i => i = INop) ex_prog.
Proof.
  assert (E : ex_prog = let az := CSet 0 576460743713488896 0 0 in
    [IMemoOpen 1 12; ISet az; ICaptureLate x01 (-3); ISpan az; ICaptureEnd; IMemoClose; ILabel 1; ITestChar xe9 4; INop; IChar x0a;
     ICommit 5; ILabel 4; ITestAny x02 2; INop; ICommit 3; ILabel 2; ILabel 3; IEmpty x10; ILabel 5]) by (vm_compute; reflexivity).
  rewrite E. cbn [cw0]. split.
  - repeat (apply Forall_cons || apply Forall_nil); cbn [listed]; try exact Logic.I; try (repeat split; reflexivity).
    cbn [In]. tauto.
  - do 8 apply Exists_cons_tl. apply Exists_cons_hd. reflexivity.
Qed.
Example ex_listing : prog_string ex_quote (fun _ => []) ex_prog = lit "	MemoOpen L1 12
	Set {'a'..'z'}
	Capture late 1 -3
	Span {'a'..'z'}
	Capture end
	MemoClose
L1:	TestChar 'é' L4
	Char '\n'
	Commit L5
L4:	TestAny 2 L2
	Commit L3
L2:
L3:	Empty WordBoundary
L5:
".
Proof. vm_compute. reflexivity. Qed.
Example ex_listing_labels : exists c, encode ex_prog = Some c.
Proof. vm_compute. eexists. reflexivity. Qed.
