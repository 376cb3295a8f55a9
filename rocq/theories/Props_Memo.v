(** Properties C21, C22 and C37: parsing with a memoization table. *)
From Coq Require Import ZArith.
From Verif Require Import Base Model_Charset Model_Isa Model_Capture Model_Code Model_VM Model_Pattern Spec_Peg Spec_Scope Spec_Run Model_Table Spec_Memo Proof_Eval Proof_Memo Proof_Memo4.
Local Open Scope nat_scope.

(** C21: with a table that has been through any number of parses of a text, a parse of the same text
    gives the result of the semantics, in which Memo means nothing: what is in the table has no
    influence on the match, its end, the captures, the errors and the state of the checkers.
    Missing: this machine keeps captures in lists; in the code the captures of an entry share an array
    with the stack, and then it is false ([C21_alias_refuted] in Props_Heap; what remains is C42). *)
Theorem C21_stops_partial : forall bufsz CS check thr threshold p code s t (cs0 : CS) r errs cs',
  0 < bufsz -> check_ok check s -> supported p -> compiled_memo thr p code -> memo_agree s check p -> memo_pure s check p ->
  after_runs bufsz check threshold p code s tt_new t ->
  peg s check [] p 0 ([], cs0) r (errs, cs') ->
  exists f o st, vm_exec bufsz (tree_table threshold) check None f code s t cs0 = Some (ROk o st) /\ agrees None r o /\ o_errs o = errs /\ m_cs st = cs'.
Proof.
  intros bufsz CS check thr threshold p code s t cs0 r errs cs' Hb Hk Hs Hc Ha Hp Ht.
  apply (good_some bufsz Hb CS check thr threshold p code s Hk Ha Hp). eapply good_runs; try eassumption. apply good_new; assumption.
Qed.
Print Assumptions C21_stops_partial.
Theorem C21_result_partial : forall bufsz CS check thr threshold p code s t (cs0 : CS) r errs cs' f y,
  0 < bufsz -> check_ok check s -> supported p -> compiled_memo thr p code -> memo_agree s check p -> memo_pure s check p ->
  after_runs bufsz check threshold p code s tt_new t ->
  peg s check [] p 0 ([], cs0) r (errs, cs') ->
  vm_exec bufsz (tree_table threshold) check None f code s t cs0 = Some y ->
  exists o st, y = ROk o st /\ agrees None r o /\ o_errs o = errs /\ m_cs st = cs'.
Proof.
  intros bufsz CS check thr threshold p code s t cs0 r errs cs' f y Hb Hk Hs Hc Ha Hp Ht.
  apply (good_is bufsz Hb CS check thr threshold p code s Hk Ha Hp). eapply good_runs; try eassumption. apply good_new; assumption.
Qed.
Print Assumptions C21_result_partial.
(** nor does the table make a parse stop that has no result *)
Theorem C21_forever : forall bufsz CS check thr threshold p code s t (cs0 : CS),
  0 < bufsz -> check_ok check s -> supported p -> compiled_memo thr p code -> memo_agree s check p -> memo_pure s check p ->
  after_runs bufsz check threshold p code s tt_new t ->
  (forall r w', ~ peg s check [] p 0 ([], cs0) r w') ->
  forall f, vm_exec bufsz (tree_table threshold) check None f code s t cs0 = None.
Proof.
  intros bufsz CS check thr threshold p code s t cs0 Hb Hk Hs Hc Ha Hp Ht.
  apply (good_forever bufsz Hb CS check thr threshold p code s Hk Ha Hp). eapply good_runs; try eassumption. apply good_new; assumption.
Qed.
Print Assumptions C21_forever.
(** patterns without checkers and errors inside of Memo satisfy the condition [memo_pure] *)
Theorem C21_pure : forall CS check p s, memo_effectless p -> memo_pure s (CS:=CS) check p.
Proof. intros CS check p s H. apply effectless_pure. exact H. Qed.
Print Assumptions C21_pure.

(** words, lists in parentheses and a repetition of a memoized pattern (which becomes a memo tree) *)
Definition m_word : pattern := PCap (PPlus (PClass (cs_range x61 x7a))) 1.
Definition m_item : pattern := PAlt m_word (p_concat [PLit [x28]; PNonTerm "S" None; PLit [x29]]).
Definition m_list : pattern := PCap (PStar (PMemo (PSeq (PNonTerm "I" None) (POpt (PLit [x20]))) 2)) 3.
Definition m_defs : list (string * pattern) := [("S"%string, m_list); ("I"%string, PMemo m_item 1)].
Definition m_p : pattern := PGrammar m_defs "S".
Definition no_check (k : nat) (cs : unit) (m s : list byte) (i : nat) (id fl : Z) : unit * option nat := (cs, None).

Definition m_set : list (env * pattern) :=
  ([], m_p) :: map (fun q => ([m_defs], q))
  [m_list; PStar (PMemo (PSeq (PNonTerm "I" None) (POpt (PLit [x20]))) 2); PMemo (PSeq (PNonTerm "I" None) (POpt (PLit [x20]))) 2;
   PSeq (PNonTerm "I" None) (POpt (PLit [x20])); PNonTerm "I" None; POpt (PLit [x20]); PLit [x20];
   PMemo m_item 1; m_item; m_word; PPlus (PClass (cs_range x61 x7a)); PClass (cs_range x61 x7a);
   p_concat [PLit [x28]; PNonTerm "S" None; PLit [x29]]; PSeq (PLit [x28]) (PNonTerm "S" None); PLit [x28]; PNonTerm "S" None; PLit [x29]].
Example m_set_closed : forall E q E' q', In (E, q) m_set -> child E q E' q' -> In (E', q') m_set.
Proof.
  intros E q E' q' H C. unfold m_set in H. cbn [map In] in H.
  repeat (destruct H as [H|H]; [injection H as <- <-; inversion C; subst;
    repeat match goal with H : In _ m_defs |- _ => unfold m_defs in H; cbn [In] in H; destruct H as [H|[H|[]]]; injection H as <- <-
                         | H : lookup _ _ = Some _ |- _ => vm_compute in H; injection H as <- <- end;
    unfold m_set; cbn [map In]; tauto|]). destruct H.
Qed.
Example m_memoized : forall id E q, memoized m_p id E q -> E = [m_defs] /\
  (id = 1%Z /\ q = m_item \/ id = 2%Z /\ q = PSeq (PNonTerm "I" None) (POpt (PLit [x20]))).
Proof.
  intros id E q H. apply (part_in (fun E q => In (E, q) m_set) m_set_closed) in H; [|left; reflexivity].
  unfold m_set in H. cbn [map In] in H. repeat (destruct H as [H|H]; [discriminate H || (injection H as <- <- <-; auto)|]). destruct H.
Qed.
Example m_ok : supported m_p /\ (exists code, compiled_memo 100 m_p code) /\ memo_once m_p /\ memo_recorded m_p /\
  (forall s, memo_agree s no_check m_p) /\ (forall s, memo_pure s no_check m_p).
Proof.
  assert (O : memo_once m_p).
  { intros id E q E' q' H H'. apply m_memoized in H. apply m_memoized in H'. destruct H as [-> [[-> ->]|[-> ->]]], H' as [-> [[A ->]|[A ->]]]; try discriminate A; auto. }
  assert (R : memo_recorded m_p).
  { intros id E q H. apply m_memoized in H.
    assert (K : In (E, q) m_set /\ recorded q = true) by (destruct H as [-> [[-> ->]|[-> ->]]]; (split; [unfold m_set; cbn [map In]; tauto|reflexivity])).
    destruct K as [K1 K2]. split; [exact K2|]. intros E' x b E'' P L. apply (part_in (fun E q => In (E, q) m_set) m_set_closed) in P; [|exact K1].
    unfold m_set in P. cbn [map In] in P. repeat (destruct P as [P|P]; [discriminate P || (injection P as <- <-; vm_compute in L; injection L as <- <-; reflexivity)|]). destruct P. }
  split; [split; [|split]|].
  - vm_compute. tauto.
  - vm_compute. repeat split; repeat constructor; intro H; repeat (destruct H as [H|H]; [discriminate H|]); destruct H.
  - vm_compute. tauto.
  - split; [|split; [exact O|split; [exact R|split]]].
    + eexists. exists 50, (CState 0 2). do 2 eexists. split; [|split; [vm_compute; reflexivity|vm_compute; reflexivity]].
      intros id E q H. apply m_memoized in H. cbn [cs_memo]. destruct H as [_ [[-> _]|[-> _]]]; lia.
    + intros s id E q E' q' H H'. destruct (O _ _ _ _ _ H H') as [<- <-]. auto.
    + intro s. apply effectless_pure. apply memo_recorded_effectless. exact R.
Qed.
(** "ab (c d) e" parsed twice: the second time most of it comes from the table *)
Definition m_text : list byte := [x61; x62; x20; x28; x63; x20; x64; x29; x20; x65].
Definition m_capt : list ctree := [CNode 3 0 10 [CNode 1 0 2 []; CNode 3 4 3 [CNode 1 4 1 []; CNode 1 6 1 []]; CNode 1 9 1 []]].
Definition m_code : code := match compile 100 50 m_p (CState 0 2) with COk c _ => match encode c with Some k => k | None => Code [] [] [] [] end | _ => Code [] [] [] [] end.
Example m_result : peg m_text no_check [] m_p 0 ([], tt) (RSucc 10 m_capt) ([], tt).
Proof. eapply (eval_sound _ _ _ 30). vm_compute. reflexivity. Qed.
Definition m_table (t : ttable) (s : list byte) : ttable :=
  match vm_exec 4 (tree_table 0) no_check None 400 m_code s t tt with Some (ROk o st) => m_tbl st | _ => None end.
Example m_twice : after_runs 4 no_check 0 m_p m_code m_text tt_new (m_table tt_new m_text) /\
  (exists f o st, f < 30 /\ vm_exec 4 (tree_table 0) no_check None f m_code m_text (m_table tt_new m_text) tt = Some (ROk o st) /\
    o_pos o = 10 /\ option_map flat1 (o_capt o) = Some m_capt) /\
  vm_exec 4 (tree_table 0) no_check None 100 m_code m_text tt_new tt = None.
Proof.
  split; [|split].
  - eapply (runs_more _ _ _ _ _ _ _ 400); [exact m_result|vm_compute; reflexivity|]. match goal with |- after_runs _ _ _ _ _ _ ?a ?b => replace a with b by (vm_compute; reflexivity) end. apply runs_none.
  - exists 29. do 2 eexists. split; [lia|]. split; [vm_compute; reflexivity|]. split; reflexivity.
  - vm_compute. reflexivity.
Qed.

(** C22: parse a text with a fresh table, then edit the text, telling the table about each edit, and
    parse again with the same table any number of times: the result of each parse is the result of the
    semantics on the edited text, as if it were parsed from scratch.
    Missing: more than one round of edits (false, see [C22_rounds_refuted]); edits after the first that
    make the text shorter by more than one byte (the interval tree can then lose its order, see C24); memoized patterns with
    Any, Search, checkers or errors inside (false for Any, see [C22_any_refuted]); memo ids used twice;
    and the sharing of slices, as in C21. *)
Theorem C22_stops_partial : forall bufsz CS check thr threshold p code s f0 (cs : CS) r0 w0 o0 st0 es t1 t cs0 r errs cs',
  0 < bufsz -> check_ok check s -> check_ok check (edits_text s es) -> supported p -> compiled_memo thr p code -> memo_once p -> memo_recorded p ->
  peg s check [] p 0 ([], cs) r0 w0 -> vm_exec bufsz (tree_table threshold) check None f0 code s tt_new cs = Some (ROk o0 st0) ->
  edits_ok s es -> Forall gentle (tl es) ->
  after_edits (m_tbl st0) es t1 -> after_runs bufsz check threshold p code (edits_text s es) t1 t ->
  peg (edits_text s es) check [] p 0 ([], cs0) r (errs, cs') ->
  exists f o st, vm_exec bufsz (tree_table threshold) check None f code (edits_text s es) t cs0 = Some (ROk o st) /\ agrees None r o /\ o_errs o = errs /\ m_cs st = cs'.
Proof.
  intros bufsz CS check thr threshold p code s f0 cs r0 w0 o0 st0 es t1 t cs0 r errs cs' Hb Hk Hk' Hs Hc Ho Hr Hp Hx He Hg Ha Ht.
  apply (good_some bufsz Hb CS check thr threshold p code _ Hk'); [apply once_agree'|apply rec_pure'|]; try assumption.
  eapply good_runs; try eassumption; [apply once_agree'|apply rec_pure'|]; try assumption. eapply good_edits; eassumption.
Qed.
Print Assumptions C22_stops_partial.
Theorem C22_result_partial : forall bufsz CS check thr threshold p code s f0 (cs : CS) r0 w0 o0 st0 es t1 t cs0 r errs cs' f y,
  0 < bufsz -> check_ok check s -> check_ok check (edits_text s es) -> supported p -> compiled_memo thr p code -> memo_once p -> memo_recorded p ->
  peg s check [] p 0 ([], cs) r0 w0 -> vm_exec bufsz (tree_table threshold) check None f0 code s tt_new cs = Some (ROk o0 st0) ->
  edits_ok s es -> Forall gentle (tl es) ->
  after_edits (m_tbl st0) es t1 -> after_runs bufsz check threshold p code (edits_text s es) t1 t ->
  peg (edits_text s es) check [] p 0 ([], cs0) r (errs, cs') ->
  vm_exec bufsz (tree_table threshold) check None f code (edits_text s es) t cs0 = Some y ->
  exists o st, y = ROk o st /\ agrees None r o /\ o_errs o = errs /\ m_cs st = cs'.
Proof.
  intros bufsz CS check thr threshold p code s f0 cs r0 w0 o0 st0 es t1 t cs0 r errs cs' f y Hb Hk Hk' Hs Hc Ho Hr Hp Hx He Hg Ha Ht.
  apply (good_is bufsz Hb CS check thr threshold p code _ Hk'); [apply once_agree'|apply rec_pure'|]; try assumption.
  eapply good_runs; try eassumption; [apply once_agree'|apply rec_pure'|]; try assumption. eapply good_edits; eassumption.
Qed.
Print Assumptions C22_result_partial.
Theorem C22_forever_partial : forall bufsz CS check thr threshold p code s f0 (cs : CS) r0 w0 o0 st0 es t1 t cs0,
  0 < bufsz -> check_ok check s -> check_ok check (edits_text s es) -> supported p -> compiled_memo thr p code -> memo_once p -> memo_recorded p ->
  peg s check [] p 0 ([], cs) r0 w0 -> vm_exec bufsz (tree_table threshold) check None f0 code s tt_new cs = Some (ROk o0 st0) ->
  edits_ok s es -> Forall gentle (tl es) ->
  after_edits (m_tbl st0) es t1 -> after_runs bufsz check threshold p code (edits_text s es) t1 t ->
  (forall r w', ~ peg (edits_text s es) check [] p 0 ([], cs0) r w') ->
  forall f, vm_exec bufsz (tree_table threshold) check None f code (edits_text s es) t cs0 = None.
Proof.
  intros bufsz CS check thr threshold p code s f0 cs r0 w0 o0 st0 es t1 t cs0 Hb Hk Hk' Hs Hc Ho Hr Hp Hx He Hg Ha Ht.
  apply (good_forever bufsz Hb CS check thr threshold p code _ Hk'); [apply once_agree'|apply rec_pure'|]; try assumption.
  eapply good_runs; try eassumption; [apply once_agree'|apply rec_pure'|]; try assumption. eapply good_edits; eassumption.
Qed.
Print Assumptions C22_forever_partial.
(** "ab (c d) e" becomes "ab (c d) " and then "xyab (c d) "; the parse takes the words in parentheses
    from the table, at their new places *)
Definition m_edits : list edit := [Edit 9 10 []; Edit 0 0 [x78; x79]].
Definition m_text2 : list byte := [x78; x79; x61; x62; x20; x28; x63; x20; x64; x29; x20].
Definition m_capt2 : list ctree := [CNode 3 0 11 [CNode 1 0 4 []; CNode 3 6 3 [CNode 1 6 1 []; CNode 1 8 1 []]]].
Example m_edited : edits_ok m_text m_edits /\ Forall gentle (tl m_edits) /\ edits_text m_text m_edits = m_text2 /\
  List.length (tt_values (edits_table (m_table tt_new m_text) m_edits)) > 1 /\
  peg m_text2 no_check [] m_p 0 ([], tt) (RSucc 11 m_capt2) ([], tt) /\
  exists o st, vm_exec 4 (tree_table 0) no_check None 400 m_code m_text2 (edits_table (m_table tt_new m_text) m_edits) tt = Some (ROk o st) /\
    o_pos o = 11 /\ option_map flat1 (o_capt o) = Some m_capt2.
Proof.
  split; [vm_compute; lia|]. split; [repeat constructor; vm_compute; lia|]. split; [reflexivity|]. split; [vm_compute; lia|].
  split; [eapply (eval_sound _ _ _ 30); vm_compute; reflexivity|]. do 2 eexists. split; [vm_compute; reflexivity|]. split; reflexivity.
Qed.

(** the same when the positions of captures are read after each of the edits: that changes nodes of the tree, which the
    parse does not notice *)
Definition m_asked : ttable :=
  tt_ask (edits_table (tt_ask (tt_ask (edits_table (tt_ask (m_table tt_new m_text) 1) [Edit 9 10 []]) 0) 2) [Edit 0 0 [x78; x79]]) 0.
Example m_asked_ok : after_edits (m_table tt_new m_text) m_edits m_asked /\
  exists o st, vm_exec 4 (tree_table 0) no_check None 400 m_code m_text2 m_asked tt = Some (ROk o st) /\
    o_pos o = 11 /\ option_map flat1 (o_capt o) = Some m_capt2.
Proof.
  split; [unfold m_asked, edits_table, m_edits; cbn [fold_left]; apply ae_ask with (h := 1); apply ae_edit; apply ae_ask with (h := 0); apply ae_ask with (h := 2); apply ae_edit; apply ae_ask with (h := 0); apply ae_none|].
  do 2 eexists. split; [vm_compute; reflexivity|]. split; reflexivity.
Qed.

(** What is missing above is false. *)
Definition r_in : pattern := PSeq (PLit [x61]) (PNot (PLit [x62; x63; x64])).
Definition r_out : pattern := PSeq (PStar (PLit [x78])) (PMemo r_in 2).
Definition r_p : pattern := PMemo r_out 1.
Definition r_set : list (env * pattern) := map (fun q => ([], q))
  [r_p; r_out; PStar (PLit [x78]); PLit [x78]; PMemo r_in 2; r_in; PLit [x61]; PNot (PLit [x62; x63; x64]); PLit [x62; x63; x64]].
Definition code_of (p : pattern) : code :=
  match compile 100 50 p (CState 0 2) with COk c _ => match encode c with Some k => k | None => Code [] [] [] [] end | _ => Code [] [] [] [] end.
Definition table_of (p : pattern) (t : ttable) (s : list byte) : ttable :=
  match vm_exec 4 (tree_table 0) no_check None 100 (code_of p) s t tt with Some (ROk o st) => m_tbl st | _ => None end.
Example r_set_closed : forall E q E' q', In (E, q) r_set -> child E q E' q' -> In (E', q') r_set.
Proof.
  intros E q E' q' H C. unfold r_set in H. cbn [map In] in H.
  repeat (destruct H as [H|H]; [injection H as <- <-; inversion C; subst; unfold r_set; cbn [map In]; tauto|]). destruct H.
Qed.
Example r_memoized : forall id E q, memoized r_p id E q -> E = [] /\ (id = 1%Z /\ q = r_out \/ id = 2%Z /\ q = r_in).
Proof.
  intros id E q H. apply (part_in (fun E q => In (E, q) r_set) r_set_closed) in H; [|left; reflexivity].
  unfold r_set in H. cbn [map In] in H. repeat (destruct H as [H|H]; [discriminate H || (injection H as <- <- <-; auto)|]). destruct H.
Qed.
Example r_ok : supported r_p /\ compiled_memo 100 r_p (code_of r_p) /\ memo_once r_p /\ memo_recorded r_p.
Proof.
  split; [vm_compute; tauto|]. split; [|split].
  - exists 50, (CState 0 2). do 2 eexists. split; [|split; [vm_compute; reflexivity|vm_compute; reflexivity]].
    intros id E q H. apply r_memoized in H. cbn [cs_memo]. destruct H as [_ [[-> _]|[-> _]]]; lia.
  - intros id E q E' q' H H'. apply r_memoized in H. apply r_memoized in H'. destruct H as [-> [[-> ->]|[-> ->]]], H' as [-> [[A ->]|[A ->]]]; try discriminate A; auto.
  - intros id E q H. apply r_memoized in H.
    assert (K : In (E, q) r_set /\ recorded q = true) by (destruct H as [-> [[-> ->]|[-> ->]]]; (split; [unfold r_set; cbn [map In]; tauto|reflexivity])).
    destruct K as [K1 K2]. split; [exact K2|]. intros E' x b E'' P L. apply (part_in (fun E q => In (E, q) r_set) r_set_closed) in P; [|exact K1].
    unfold r_set in P. cbn [map In] in P. repeat (destruct P as [P|P]; [discriminate P|]). destruct P.
Qed.
Example run_once : forall p t s r w', peg s no_check [] p 0 ([], tt) r w' ->
  (exists o st, vm_exec 4 (tree_table 0) no_check None 100 (code_of p) s t tt = Some (ROk o st)) -> after_runs 4 no_check 0 p (code_of p) s t (table_of p t s).
Proof. intros p t s r w' H (o & st & Hx). unfold table_of. rewrite Hx. eapply runs_more; [exact H|exact Hx|apply runs_none]. Qed.
(** First, an entry found in the table does not tell how far the parse that made it has looked, so an
    entry made around it ends too early, and an edit behind its end leaves it in the table although it
    is wrong by then. *)
Theorem C22_rounds_refuted : exists p code s1 s2 s3 e1 e2 t1 t2,
  supported p /\ compiled_memo 100 p code /\ memo_once p /\ memo_recorded p /\
  edit_ok s1 e1 /\ s2 = edit_text s1 e1 /\ edit_ok s2 e2 /\ s3 = edit_text s2 e2 /\ grows e1 /\ grows e2 /\
  after_runs 4 no_check 0 p code s1 tt_new t1 /\
  after_runs 4 no_check 0 p code s2 (edits_table t1 [e1]) t2 /\
  peg s3 no_check [] p 0 ([], tt) RFail ([], tt) /\
  exists f o st, vm_exec 4 (tree_table 0) no_check None f code s3 (edits_table t2 [e2]) tt = Some (ROk o st) /\ o_ok o = true.
Proof.
  exists r_p, (code_of r_p), [x78; x78; x61; x62; x63; x65], [x78; x78; x78; x61; x62; x63; x65], [x78; x78; x78; x61; x62; x63; x64], (Edit 0 0 [x78]), (Edit 6 7 [x64]),
    (table_of r_p tt_new [x78; x78; x61; x62; x63; x65]), (table_of r_p (edits_table (table_of r_p tt_new [x78; x78; x61; x62; x63; x65]) [Edit 0 0 [x78]]) [x78; x78; x78; x61; x62; x63; x65]).
  destruct r_ok as (R1 & R2 & R3 & R4). repeat (split; [assumption|]). split; [vm_compute; lia|]. split; [reflexivity|]. split; [vm_compute; lia|]. split; [reflexivity|].
  split; [vm_compute; lia|]. split; [vm_compute; lia|].
  split; [eapply run_once; [eapply (eval_sound _ _ _ 30); vm_compute; reflexivity|do 2 eexists; vm_compute; reflexivity]|].
  split; [eapply run_once; [eapply (eval_sound _ _ _ 30); vm_compute; reflexivity|do 2 eexists; vm_compute; reflexivity]|].
  split; [eapply (eval_sound _ _ _ 30); vm_compute; reflexivity|]. exists 100. do 2 eexists. split; [vm_compute; reflexivity|reflexivity].
Qed.
Print Assumptions C22_rounds_refuted.

(** Second, Any moves forward without recording how far it has looked: "a" matches by the second
    alternative, and the entry is still there after "abc" has become "abcd". *)
Definition any_in : pattern := PAlt (PSeq (PSeq (PSeq (PLit [x61]) (PDot x01)) (PDot x01)) (PDot x01)) (PLit [x61]).
Definition any_set : list (env * pattern) := map (fun q => ([], q)) [PMemo any_in 1; any_in; PSeq (PSeq (PSeq (PLit [x61]) (PDot x01)) (PDot x01)) (PDot x01); PSeq (PSeq (PLit [x61]) (PDot x01)) (PDot x01); PSeq (PLit [x61]) (PDot x01); PLit [x61]; PDot x01].
Example any_set_closed : forall E q E' q', In (E, q) any_set -> child E q E' q' -> In (E', q') any_set.
Proof.
  intros E q E' q' H C. unfold any_set in H. cbn [map In] in H.
  repeat (destruct H as [H|H]; [injection H as <- <-; inversion C; subst; unfold any_set; cbn [map In]; tauto|]). destruct H.
Qed.
Theorem C22_any_refuted : exists p code s e t,
  supported p /\ compiled_memo 100 p code /\ memo_once p /\ edit_ok s e /\ grows e /\
  after_runs 4 no_check 0 p code s tt_new t /\
  peg (edit_text s e) no_check [] p 0 ([], tt) (RSucc 4 []) ([], tt) /\
  exists f o st, vm_exec 4 (tree_table 0) no_check None f code (edit_text s e) (edits_table t [e]) tt = Some (ROk o st) /\ o_ok o = true /\ o_pos o = 1.
Proof.
  assert (M : forall id E q, memoized (PMemo any_in 1) id E q -> E = [] /\ id = 1%Z /\ q = any_in).
  { intros id E q H. apply (part_in (fun E q => In (E, q) any_set) any_set_closed) in H; [|left; reflexivity]. unfold any_set in H. cbn [map In] in H.
    repeat (destruct H as [H|H]; [discriminate H || (injection H as <- <- <-; auto)|]). destruct H. }
  exists (PMemo any_in 1), (code_of (PMemo any_in 1)), [x61; x62; x63], (Edit 3 3 [x64]), (table_of (PMemo any_in 1) tt_new [x61; x62; x63]).
  split; [vm_compute; tauto|]. split.
  { exists 50, (CState 0 2). do 2 eexists. split; [|split; [vm_compute; reflexivity|vm_compute; reflexivity]].
    intros id E q H. apply M in H. cbn [cs_memo]. destruct H as (_ & -> & _). lia. }
  split; [intros id E q E' q' H H'; apply M in H; apply M in H'; destruct H as (-> & -> & ->), H' as (-> & _ & ->); auto|].
  split; [vm_compute; lia|]. split; [vm_compute; lia|].
  split; [eapply run_once; [eapply (eval_sound _ _ _ 30); vm_compute; reflexivity|do 2 eexists; vm_compute; reflexivity]|].
  split; [eapply (eval_sound _ _ _ 30); vm_compute; reflexivity|]. exists 100. do 2 eexists. split; [vm_compute; reflexivity|split; reflexivity].
Qed.
Print Assumptions C22_any_refuted.

(** The condition [memo_pure] of C21 is needed: the table does not keep the errors reported inside of a
    memoized pattern, and a second parse of the same text does not report them. *)
Definition err_p : pattern := PMemo (PSeq (PLit [x61]) (PError "e" (Some PEmpty))) 1.
Theorem C21_errors_refuted : exists p code s t,
  supported p /\ compiled 100 p code /\ after_runs 4 no_check 0 p code s tt_new t /\
  peg s no_check [] p 0 ([], tt) (RSucc 1 []) ([(1, "e"%string)], tt) /\
  exists f o st, vm_exec 4 (tree_table 0) no_check None f code s t tt = Some (ROk o st) /\ o_ok o = true /\ o_errs o = [].
Proof.
  exists err_p, (code_of err_p), [x61], (table_of err_p tt_new [x61]). split; [vm_compute; tauto|].
  split; [exists 50, (CState 0 2); do 2 eexists; split; [vm_compute; reflexivity|vm_compute; reflexivity]|].
  split; [eapply run_once; [eapply (eval_sound _ _ _ 30); vm_compute; reflexivity|do 2 eexists; vm_compute; reflexivity]|].
  split; [eapply (eval_sound _ _ _ 30); vm_compute; reflexivity|]. exists 100. do 2 eexists. split; [vm_compute; reflexivity|split; reflexivity].
Qed.
Print Assumptions C21_errors_refuted.

(** C37 with a table: the entries of an earlier Exec bring captures outside of the interval into an
    ExecInterval, and an Exec after an ExecInterval misses captures. *)
Definition iv_p : pattern := PSeq (PMemo (PCap (PLit [x61]) 1) 1) (PSeq (PLit [x2d; x2d; x2d]) (PCap (PLit [x62]) 2)).
Theorem C37_table_refuted : exists p code s r,
  supported p /\ compiled 100 p code /\ peg s no_check [] p 0 ([], tt) r ([], tt) /\
  (exists t f o st, after_runs 4 no_check 0 p code s tt_new t /\
    vm_exec 4 (tree_table 0) no_check (Some (4, 5)) f code s t tt = Some (ROk o st) /\ ~ agrees (Some (4, 5)) r o) /\
  (exists f1 o1 st1 f2 o2 st2, vm_exec 4 (tree_table 0) no_check (Some (4, 5)) f1 code s tt_new tt = Some (ROk o1 st1) /\ agrees (Some (4, 5)) r o1 /\
    vm_exec 4 (tree_table 0) no_check None f2 code s (m_tbl st1) tt = Some (ROk o2 st2) /\ ~ agrees None r o2).
Proof.
  exists iv_p, (code_of iv_p), [x61; x2d; x2d; x2d; x62], (RSucc 5 [CNode 1 0 1 []; CNode 2 4 1 []]). split; [vm_compute; tauto|].
  split; [exists 50, (CState 0 2); do 2 eexists; split; [vm_compute; reflexivity|vm_compute; reflexivity]|].
  split; [eapply (eval_sound _ _ _ 30); vm_compute; reflexivity|]. split.
  - exists (table_of iv_p tt_new [x61; x2d; x2d; x2d; x62]), 100. do 2 eexists.
    split; [eapply run_once; [eapply (eval_sound _ _ _ 30); vm_compute; reflexivity|do 2 eexists; vm_compute; reflexivity]|].
    split; [vm_compute; reflexivity|]. intros (_ & _ & c & H & K). injection H as <-. vm_compute in K. discriminate K.
  - exists 100. do 2 eexists. exists 100. do 2 eexists. split; [vm_compute; reflexivity|].
    split; [split; [reflexivity|split; [reflexivity|]]; eexists; split; [reflexivity|vm_compute; reflexivity]|].
    split; [vm_compute; reflexivity|]. intros (_ & _ & c & H & K). injection H as <-. vm_compute in K. discriminate K.
Qed.
Print Assumptions C37_table_refuted.
