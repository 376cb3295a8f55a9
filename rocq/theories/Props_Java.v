(** Property C63: the grammar of bench/java.go. *)
From Coq Require Import ZArith String.
From Verif Require Import Base Model_Charset Model_Isa Model_Capture Model_Input Model_Code Model_VM Model_Pattern Model_Rope Model_Java Spec_Peg Spec_Run Spec_Wf Spec_Rope Spec_Java Proof_Wf Proof_Rope Proof_Rope2 Proof_Java Props_Wf.
Local Open Scope nat_scope.

(** C63: the grammar takes every text to its end, whatever the checker says, and reports no errors *)
Theorem C63_whole : forall s CS check (cs : CS), check_ok check s ->
  exists ts cs', peg s check [] j_grammar 0 ([], cs) (RSucc (List.length s) ts) ([], cs').
Proof.
  intros s CS check cs Hk. destruct (C15_total s CS check _ 0 Hk java_wf (Nat.le_0_l _) ([], cs)) as (r & [errs cs'] & H).
  destruct (java_whole s CS check _ _ _ H Hk) as (F & ts & ->). cbn [fst] in F. subst errs. eauto.
Qed.
Print Assumptions C63_whole.
(** so that Exec of its program stops at the end of the text, and succeeds; the captures are comments, names before
    parentheses, modifiers, strings and newlines *)
Theorem C63_exec : forall bufsz thr code s, 0 < bufsz -> compiled thr j_grammar code ->
  exists f o st c, vm_exec bufsz none_table word_check None f code s tt tt = Some (ROk o st) /\
    o_ok o = true /\ o_pos o = List.length s /\ o_capt o = Some c /\ Forall (java_piece s) (flat1 c).
Proof.
  intros bufsz thr code s Hb Hc. destruct (C15_exec_partial bufsz unit word_check s thr j_grammar code None tt Hb (word_ok s) java_supported java_wf Hc) as (f & o & st & r & w' & E & P & A).
  destruct (java_whole s unit word_check _ _ _ P (word_ok s)) as (_ & ts & ->). destruct A as (A1 & A2 & c & A3 & A4). exists f, o, st, c.
  split; [exact E|]. split; [exact A1|]. split; [exact A2|]. split; [exact A3|]. rewrite A4. cbn [clip]. eapply java_pieces. exact P.
Qed.
Print Assumptions C63_exec.
(** edit.go:120-138: the end of a comment is where the next line starts, as the rope of the text says *)
Theorem C63_comment : forall r s i n, made (line_ends x0a) r s -> java_piece s (CNode cap_line_comment i n []) ->
  exists l, rp_line_col_at r i = Some l /\ rp_offset_at r (Loc (l_line l + 1) 0) = Some (Z.of_nat (i + n)).
Proof. exact comment_end. Qed.
Print Assumptions C63_comment.

(** the program exists; a line of Java gives a modifier, a name, a string, a comment with its newline, and a newline *)
Definition java_code : code := match compile 100 100 j_grammar (CState 0 1) with COk c _ => match encode c with Some k => k | None => Code [] [] [] [] end | _ => Code [] [] [] [] end.
Definition java_text : list byte := list_byte_of_string "public void f(String s) { g(""a\""b""); } // last
x = y;
".
Example C63_ex : compiled 100 j_grammar java_code /\
  match vm_exec 4096 none_table word_check None 3000 java_code java_text tt tt with
  | Some (ROk o _) => o_ok o = true /\ match o_capt o with Some c => map (fun t => match t with CNode id i n _ => (id, string_of_list_byte (part java_text i n)) end) (flat1 c) =
      [(2%Z, "public"); (1%Z, "f"); (1%Z, "g"); (3%Z, """a\""b"""); (0%Z, "// last
"); (4%Z, "
")]%string | None => False end
  | _ => False
  end.
Proof. split; [exists 100, (CState 0 1); do 2 eexists; split; vm_compute; reflexivity|]. vm_compute. auto. Qed.
