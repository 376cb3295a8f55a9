(** Property C39: the language of package re. *)
From Coq Require Import ZArith String.
From Verif Require Import Base Model_Charset Model_Isa Model_Capture Model_Input Model_Code Model_VM Model_Pattern Model_Re Spec_Peg Spec_Scope Spec_Run Spec_Re Proof_Charset Proof_Props2 Proof_Re Proof_Re2.
Local Open Scope nat_scope.

(** C39: on every text the parser of package re stops.  If the text is an expression according to the grammar in
    the comment of grammar.go, Compile and CompileCap give the pattern that the expression stands for.
    What is missing: the expression must be [plain], see below. *)
Theorem C39_expression_partial : forall bufsz CS check s thr code (cs0 : CS) e rest,
  0 < bufsz -> check_ok check s -> compiled thr re_grammar code -> read s = Yes (TExpr e) rest -> plain e ->
  exists f o st, vm_exec bufsz none_table check None f code s tt cs0 = Some (ROk o st) /\
    forall capg m, re_compile s capg o m = RePattern (fst (denote e m)) (snd (denote e m)).
Proof.
  intros bufsz CS check s thr code cs0 e rest Hb Hk Hc Hr Hp.
  pose proof (re_parse s CS check false ([], cs0)) as P. rewrite Hr in P. destruct P as (ts & P & _ & _).
  destruct (exec_some bufsz Hb CS check s Hk thr re_grammar code None cs0 _ _ _ re_supported Hc P) as (f & o & st & H1 & (H2 & H3 & c & H4 & H5) & H6 & _).
  exists f, o, st. split; [exact H1|]. intros capg m.
  exact (re_compile_expr s CS check capg cs0 e rest ts o c m P Hr Hp H2 H4 H5 H6).
Qed.
Print Assumptions C39_expression_partial.
(** If the text is a grammar the result is the grammar with these definitions: each name once, with its last
    definition; the first name is the start.  CompileCap also adds captures. *)
Theorem C39_grammar_partial : forall bufsz CS check s thr code (cs0 : CS) l rest,
  0 < bufsz -> check_ok check s -> compiled thr re_grammar code -> read s = Yes (TGrammar l) rest -> Forall (fun d => plain (snd d)) l ->
  exists f o st, vm_exec bufsz none_table check None f code s tt cs0 = Some (ROk o st) /\
    forall m, exists x e l' defs, l = (x, e) :: l' /\ NoDup (names defs) /\ (forall y, assoc defs y = last_def (fst (denote_defs l m)) y) /\
      re_compile s false o m = RePattern (PGrammar defs (name x)) (snd (denote_defs l m)) /\
      re_compile s true o m = RePattern (fst (p_cap_grammar (name x) defs)) (snd (denote_defs l m)).
Proof.
  intros bufsz CS check s thr code cs0 l rest Hb Hk Hc Hr Hp.
  pose proof (re_parse s CS check false ([], cs0)) as P. rewrite Hr in P. destruct P as (ts & P & _ & _).
  destruct (exec_some bufsz Hb CS check s Hk thr re_grammar code None cs0 _ _ _ re_supported Hc P) as (f & o & st & H1 & (H2 & H3 & c & H4 & H5) & H6 & _).
  exists f, o, st. split; [exact H1|]. intro m. exact (re_compile_defs s CS check cs0 l rest ts o c m P Hr Hp H2 H4 H5 H6).
Qed.
Print Assumptions C39_grammar_partial.
(** Compile returns an error exactly for the texts that the grammar does not allow *)
Theorem C39_error : forall bufsz CS check s thr code (cs0 : CS),
  0 < bufsz -> check_ok check s -> compiled thr re_grammar code ->
  exists f o st, vm_exec bufsz none_table check None f code s tt cs0 = Some (ROk o st) /\
    forall capg m, re_compile s capg o m = ReError <-> read s = No.
Proof.
  intros bufsz CS check s thr code cs0 Hb Hk Hc. pose proof (re_parse s CS check false ([], cs0)) as P. pose proof (read_total s) as T.
  destruct (read s) as [| |p rest] eqn:Hr; [destruct (T eq_refl)| |].
  - destruct (exec_some bufsz Hb CS check s Hk thr re_grammar code None cs0 _ _ _ re_supported Hc P) as (f & o & st & H1 & (H2 & H3) & H6 & _).
    exists f, o, st. split; [exact H1|]. intros capg m. split; [reflexivity|]. intros _. unfold re_compile. rewrite H6, H2. reflexivity.
  - destruct P as (ts & P & _ & _). destruct (exec_some bufsz Hb CS check s Hk thr re_grammar code None cs0 _ _ _ re_supported Hc P) as (f & o & st & H1 & (H2 & H3 & c & H4 & H5) & H6 & _).
    exists f, o, st. split; [exact H1|]. intros capg m. split; [|discriminate]. unfold re_compile. rewrite H6, H2, H4. destruct (flat1 c); [discriminate|]. destruct (conv s capg c0 m) as [[? ?]|]; discriminate.
Qed.
Print Assumptions C39_error.
(** Every expression that has no single braces, empty classes and octal numbers above 177 can be written down
    and gives its pattern: this does not mention the reader of the specification. *)
Theorem C39_write_partial : forall bufsz CS check thr code (cs0 : CS) e,
  0 < bufsz -> check_ok check (show e) -> compiled thr re_grammar code -> legal e ->
  exists f o st, vm_exec bufsz none_table check None f code (show e) tt cs0 = Some (ROk o st) /\
    forall capg m, re_compile (show e) capg o m = RePattern (fst (denote e m)) (snd (denote e m)).
Proof.
  intros bufsz CS check thr code cs0 e Hb Hk Hc L. destruct (top_expr e L) as (e' & Hr & Hs & Hp).
  destruct (C39_expression_partial bufsz CS check (show e) thr code cs0 e' [] Hb Hk Hc Hr Hp) as (f & o & st & H1 & H2). exists f, o, st. split; [exact H1|]. intros capg m. rewrite H2, (Hs m). reflexivity.
Qed.
Print Assumptions C39_write_partial.
Theorem C39_write_grammar_partial : forall bufsz CS check thr code (cs0 : CS) x e l,
  0 < bufsz -> check_ok check (show_defs ((x, e) :: l)) -> compiled thr re_grammar code ->
  Forall (fun d => legal_name (fst d) = true /\ legal (snd d)) ((x, e) :: l) ->
  exists f o st, vm_exec bufsz none_table check None f code (show_defs ((x, e) :: l)) tt cs0 = Some (ROk o st) /\
    forall m, exists defs, NoDup (names defs) /\ (forall y, assoc defs y = last_def (fst (denote_defs ((x, e) :: l) m)) y) /\
      re_compile (show_defs ((x, e) :: l)) false o m = RePattern (PGrammar defs (name x)) (snd (denote_defs ((x, e) :: l) m)).
Proof.
  intros bufsz CS check thr code cs0 x e l Hb Hk Hc L. destruct (top_defs ((x, e) :: l) ltac:(discriminate) L) as (d' & Hr & Hs).
  destruct (C39_grammar_partial bufsz CS check _ thr code cs0 d' [] Hb Hk Hc Hr (same_defs_plain _ _ Hs)) as (f & o & st & H1 & H2). exists f, o, st. split; [exact H1|]. intro m.
  destruct (H2 m) as (x' & e' & l' & defs & E & N & A & R & _). exists defs. rewrite <- (same_defs _ _ Hs m). split; [exact N|]. split; [exact A|]. rewrite R. subst d'. inversion Hs as [|? ? ? ? [Hx _] _]; subst. cbn in Hx. subst x'. reflexivity.
Qed.
Print Assumptions C39_write_grammar_partial.
(** the set of a class has the bytes that one of its ranges has, or the others *)
Definition covers (r : rchar * option rchar) (b : byte) : Prop :=
  match r with (a, Some c) => (bN (char_value a) <= bN b <= bN (char_value c))%N | (a, None) => b = char_value a end.
Theorem C39_class : forall neg rs m, exists c, denote (RSet neg rs) m = (PClass c, m) /\
  forall b, cs_has c b = true <-> (if neg then ~ exists r, In r rs /\ covers r b else exists r, In r rs /\ covers r b).
Proof. exact class_meaning. Qed.
Print Assumptions C39_class.

Definition no_check (k : nat) (cs : unit) (m s : list byte) (i : nat) (id fl : Z) : unit * option nat := (cs, None).
Definition re_code : option code := Eval vm_compute in match compile 100 200 re_grammar (CState 0 0) with COk c _ => encode c | _ => None end.
Example re_code_compiled : exists code, re_code = Some code /\ compiled 100 re_grammar code.
Proof. eexists. split; [reflexivity|]. exists 200, (CState 0 0). do 2 eexists. split; [vm_compute; reflexivity|vm_compute; reflexivity]. Qed.
(** Compile on a text *)
Definition run_re (s : list byte) : option re_result :=
  match re_code with
  | Some c => match vm_exec 64 none_table no_check None 4000 c s tt tt with Some (ROk o _) => Some (re_compile s false o 0) | _ => None end
  | None => None
  end.
(** a text with a comment, and what it stands for *)
Definition ex_text : list byte := list_byte_of_string ("Sum <- Num ('+' {{Num}})* !.  # sums" ++ String (Ascii.ascii_of_nat 10) "Num<-[0-9_]+/&'\n'x?")%string.
Example ex_text_read : exists l, read ex_text = Yes (TGrammar l) [] /\ List.length l = 2 /\ plain_top (TGrammar l).
Proof. eexists. split; [vm_compute; reflexivity|]. split; [reflexivity|]. repeat (vm_compute; match goal with |- True => exact Logic.I | |- _ /\ _ => split | |- Forall _ [] => apply Forall_nil | |- Forall _ _ => apply Forall_cons | |- _ \/ _ => right; discriminate end). Qed.
Example ex_expr : exists e, read (list_byte_of_string "a (b]") = No /\ read (list_byte_of_string "a (b/'c')*") = Yes (TExpr e) [] /\ plain e /\
  run_re (list_byte_of_string "a (b/'c')*") = Some (RePattern (fst (denote e 0)) 0) /\ run_re (list_byte_of_string "a (b") = Some ReError.
Proof. eexists. repeat split; try (vm_compute; reflexivity). repeat (constructor; auto). Qed.
Definition ex_legal : rexp :=
  ROr [RCat [RLit [CPlain x61; CEsc x6e; COct [x31]; CPlain x22; COct [x31; x37; x37]]; RStar (RName [x61; x31])]; RAnd (RMemo (RSet true [(CPlain x61, Some (CPlain x7a)); (CEsc x2d, None)])); RCat []; RNot RDot]%byte.
Example ex_legal_ok : legal ex_legal /\ run_re (show ex_legal) = Some (RePattern (fst (denote ex_legal 0)) 1).
Proof. split; [vm_compute; auto 20|vm_compute; reflexivity]. Qed.

(** What the code gets wrong.  The grammar allows octal numbers up to 277, but those above 177 give the byte 177:
    ParseInt is asked for a signed number of 8 bits. *)
Theorem C39_octal_refuted : exists s e, read s = Yes (TExpr e) [] /\ fst (denote e 0) = PLit [x80] /\ run_re s = Some (RePattern (PLit [x7f]) 0).
Proof. exists (list_byte_of_string "'\200'"). eexists. repeat split; vm_compute; reflexivity. Qed.
Print Assumptions C39_octal_refuted.
(** an empty class stands for the pattern that matches no byte, but gives nil *)
Theorem C39_empty_class_refuted : exists s e, read s = Yes (TExpr e) [] /\ fst (denote e 0) = PClass (cs_new []) /\ run_re s = Some ReNil.
Proof. exists (list_byte_of_string "[]"). eexists. repeat split; vm_compute; reflexivity. Qed.
Print Assumptions C39_empty_class_refuted.
(** single braces are read but give nil *)
Theorem C39_brace_refuted : exists s e, read s = Yes (TExpr e) [] /\ fst (denote e 0) = PLit [x61] /\ run_re s = Some ReNil.
Proof. exists (list_byte_of_string "{'a'}"). eexists. repeat split; vm_compute; reflexivity. Qed.
Print Assumptions C39_brace_refuted.
