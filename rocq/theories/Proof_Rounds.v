(** Any number of parses and edits with grammars/json_memo.peg. *)
From Coq Require Import ZArith String.
From Verif Require Import Base Model_Charset Model_Isa Model_Capture Model_Code Model_VM Model_Pattern Model_Table Model_Re Model_Grammars Spec_Peg Spec_Scope Spec_Run Spec_Re Spec_Memo Spec_Grammars Spec_GrammarMemo Spec_Json Spec_Rounds Proof_Eval Proof_Memo Proof_Memo4 Proof_Grammars Proof_GrammarMemo Proof_Json Proof_Json3 Proof_Tree Proof_JsonNear.
Local Open Scope nat_scope.

Lemma json_simple : forall capg, Forall (fun d => simple (snd d) = true) (rules json_memo_peg capg).
Proof. intro capg. apply Forall_forall. apply forallb_forall. destruct capg; vm_compute; reflexivity. Qed.
Lemma json_starred : forall capg, starred (PGrammar (rules json_memo_peg capg) "doc") = true.
Proof. intros [|]; vm_compute; reflexivity. Qed.
Lemma json_memos : forall capg, map snd (flat_map (fun d => memos (snd d)) (rules json_memo_peg capg)) = [PSeq (PLit [x2c]) (PNonTerm "JSON" None)].
Proof. intros [|]; vm_compute; reflexivity. Qed.
Lemma json_near : forall capg CS check s, clean s = true -> near (PGrammar (rules json_memo_peg capg) "doc") CS check s.
Proof.
  intros capg CS check s Hs id E q M. apply memoized_in in M; [|apply json_simple]. destruct M as (-> & M & _). apply (in_map snd) in M. rewrite json_memos in M. destruct M as [M|[]]. cbn [snd] in M. subst q. apply elem_near. exact Hs.
Qed.

Lemma no_check_ok : forall s, check_ok no_check s.
Proof. intros s k cs bs j id fl cs' n H. discriminate. Qed.
Lemma session_runs : forall p m s1 e1 e2 b, session p m s1 e1 e2 = Some b ->
  exists c st' code o1 st1 o2 st2 o3 st3, compile 100 100 p (CState 0 m) = COk c st' /\ encode c = Some code /\
    parse code s1 tt_new = Some (ROk o1 st1) /\ parse code (edit_text s1 e1) (shifted (m_tbl st1) e1) = Some (ROk o2 st2) /\
    parse code (edit_text (edit_text s1 e1) e2) (shifted (m_tbl st2) e2) = Some (ROk o3 st3) /\ o_ok o3 = b.
Proof.
  intros p m s1 e1 e2 b. unfold session. destruct (compile 100 100 p (CState 0 m)) as [c st'| | |] eqn:Ec; try discriminate. destruct (encode c) as [code|] eqn:Ee; try discriminate.
  destruct (parse code s1 tt_new) as [[o1 st1|]|] eqn:E1; try discriminate.
  destruct (parse code (edit_text s1 e1) (shifted (m_tbl st1) e1)) as [[o2 st2|]|] eqn:E2; try discriminate.
  destruct (parse code (edit_text (edit_text s1 e1) e2) (shifted (m_tbl st2) e2)) as [[o3 st3|]|] eqn:E3; try discriminate.
  intro H. assert (N : o_ok o3 = b) by congruence. exists c, st', code, o1, st1, o2, st2, o3, st3. auto 10.
Qed.
Lemma session_is_ok : forall p m s1 e1 e2 b, session_is p m s1 e1 e2 b = true -> session p m s1 e1 e2 = Some b.
Proof. intros p m s1 e1 e2 b. unfold session_is. generalize (session p m s1 e1 e2). intros [b'|] H; [|discriminate]. apply Bool.eqb_prop in H. congruence. Qed.
Section Session.
Variable p : pattern.
Variable C : list byte -> Prop.
Hypothesis Htot : forall s, exists r w, peg s no_check [] p 0 ([], tt) r w.
Lemma parse_history : forall b code s t o st, history_of C 64 no_check 0 p code b s t -> C s -> parse code s t = Some (ROk o st) -> history_of C 64 no_check 0 p code b s (m_tbl st).
Proof.
  intros b code s t o st Hh Hs E. destruct (Htot s) as (r & w & T). exact (ho_parse _ _ _ _ _ _ b s t 4000 tt r w o st Hh (no_check_ok s) Hs T E).
Qed.
Lemma session_ok : forall m s1 e1 e2 b, memo_below p m -> session p m s1 e1 e2 = Some b -> edit_ok s1 e1 -> edit_ok (edit_text s1 e1) e2 -> gentle e2 -> C s1 -> C (edit_text s1 e1) ->
  exists code tbl o st, compiled_memo 100 p code /\ history_of C 64 no_check 0 p code true (edit_text (edit_text s1 e1) e2) tbl /\
    parse code (edit_text (edit_text s1 e1) e2) tbl = Some (ROk o st) /\ o_ok o = b.
Proof.
  intros m s1 e1 e2 b Hm H O1 O2 G C1 C2. destruct (session_runs _ _ _ _ _ _ H) as (c & st' & code & o1 & st1 & o2 & st2 & o3 & st3 & Ec & Ee & E1 & E2 & E3 & N).
  exists code, (shifted (m_tbl st2) e2), o3, st3. split; [exists 100, (CState 0 m), c, st'; auto|]. split; [|auto].
  eapply ho_edit; [|exact O2|right; exact G]. eapply parse_history; [|exact C2|exact E2]. eapply ho_edit; [|exact O1|left; reflexivity]. eapply parse_history; [|exact C1|exact E1]. apply ho_new.
Qed.
End Session.
