(** Property C46: grammars/json_memo.peg with any number of parses and edits. *)
From Coq Require Import ZArith String.
From Verif Require Import Base Model_Charset Model_Isa Model_Capture Model_Input Model_Code Model_VM Model_Pattern Model_Table Model_Re Model_Grammars Spec_Peg Spec_Scope Spec_Run Spec_Wf Spec_Memo Spec_Re Spec_Grammars Spec_GrammarMemo Spec_Json Spec_Rounds Proof_Memo4 Proof_Grammars Proof_GrammarMemo Proof_Json Proof_Json3 Proof_Tree Proof_Rounds Props_Memo Props_Wf Props_Grammars.
Local Open Scope nat_scope.

(** Exec with a table that went through any number of parses and edits stops, with the result and the captures that the
    semantics gives, and recognises [L]; the texts that were parsed before satisfy [C], and all edits after the first one
    make the text longer or keep its length *)
Definition recognises_history (C : list byte -> Prop) (p : pattern) (L : list byte -> Prop) : Prop :=
  forall thr pcode threshold bufsz CS check b (t : list byte) tbl (cs : CS), compiled_memo thr p pcode -> 0 < bufsz -> check_ok check t ->
    history_of C bufsz check threshold p pcode b t tbl ->
    exists f o st r w, vm_exec bufsz (tree_table threshold) check None f pcode t tbl cs = Some (ROk o st) /\
      peg t check [] p 0 ([], cs) r w /\ agrees None r o /\ (o_ok o = true <-> L t) /\ (o_ok o = true -> o_pos o = List.length t).
(** C46: this holds when the texts that were parsed before are clean: no number in them breaks off after the point or after
    the e of its exponent.  They need not be JSON, and the text that is parsed last need not be clean. *)
Theorem C46_history_partial : accepted json_memo_peg (fun p => recognises_history (fun s => clean s = true) p peg_json).
Proof.
  intros bufsz0 CS0 check0 thr0 code cs0 Hb0 Hk0 Hc0.
  assert (Ht : In json_memo_peg [json_peg; json_memo_peg]) by (right; left; reflexivity).
  assert (L : light_check json_memo_peg = true) by (vm_compute; reflexivity).
  assert (M : memo_text json_memo_peg = true) by (vm_compute; reflexivity).
  destruct (light_check_ok json_memo_peg L bufsz0 CS0 check0 thr0 code cs0 Hb0 Hk0 Hc0) as (l & rest & f & o & st & Hr & H1 & H2). exists f, o, st. split; [exact H1|].
  intro capg. destruct (H2 capg) as (P1 & P2 & P3 & _). destruct (memo_text_ok json_memo_peg l rest capg L M Hr) as (Q1 & Q2 & Q3). eexists. eexists. split; [exact P1|]. rewrite (rules_are json_memo_peg capg l rest Ht Hr) in *.
  intros thr pcode threshold bufsz CS check b t tbl cs Hpc Hb Hk Hh.
  pose proof (good_tree_history bufsz CS check thr threshold _ pcode _ b t tbl Hb P2 Hpc Q2 (json_starred capg) (fun s => json_near capg CS check s) Hh) as G.
  destruct (json_peg_is t CS check json_memo_peg capg ([], cs) Ht) as [[J (ts & HR)]|[J HR]].
  - destruct (good_some bufsz Hb CS check thr threshold _ pcode t Hk (once_agree' _ _ _ _ Q1) (rec_pure' _ _ _ _ Q2) tbl cs _ _ _ G HR) as (f' & o' & st' & E & A & _). exists f', o', st'. eexists. eexists. split; [exact E|]. split; [exact HR|]. split; [exact A|]. destruct A as (A1 & A2 & _). split; [tauto|auto].
  - destruct (good_some bufsz Hb CS check thr threshold _ pcode t Hk (once_agree' _ _ _ _ Q1) (rec_pure' _ _ _ _ Q2) tbl cs _ _ _ G HR) as (f' & o' & st' & E & A & _). exists f', o', st'. eexists. eexists. split; [exact E|]. split; [exact HR|]. split; [exact A|]. destruct A as (A1 & _). rewrite A1. split; [split; [discriminate|tauto]|discriminate].
Qed.
Print Assumptions C46_history_partial.
(** clean texts: JSON, and texts that are not; and texts that are not clean *)
Example ex_clean : map (fun t => clean (list_byte_of_string t)) ["[9, -1.5e+3, {""a"": 2}]"; "[1,2"; "[,,}"; "1e+"; "[9,10,1e+]"; "[2."; "{""a"":3.x}"]%string
  = [true; true; true; true; false; false; false].
Proof. vm_compute. reflexivity. Qed.

(** three parses with two edits between them, the last parse giving [b] *)
Definition session_gives (C : list byte -> Prop) (s1 : list byte) (e1 e2 : edit) (b : bool) (p : pattern) : Prop :=
  let t := edit_text (edit_text s1 e1) e2 in
  exists pcode tbl f o st, compiled_memo 100 p pcode /\ history_of C 64 no_check 0 p pcode true t tbl /\
    vm_exec 64 (tree_table 0) no_check None f pcode t tbl tt = Some (ROk o st) /\ o_ok o = b.
Lemma session_accepted : forall (C : list byte -> Prop) s1 e1 e2 b,
  match read json_memo_peg with Yes (TGrammar l) _ => forallb (fun capg => session_is (grammar_of capg l) (snd (denote_defs l 0)) s1 e1 e2 b) [false; true] | _ => false end = true ->
  edit_ok s1 e1 -> edit_ok (edit_text s1 e1) e2 -> gentle e2 -> C s1 -> C (edit_text s1 e1) -> accepted json_memo_peg (session_gives C s1 e1 e2 b).
Proof.
  intros C s1 e1 e2 b B O1 O2 G C1 C2 bufsz0 CS0 check0 thr0 code cs0 Hb0 Hk0 Hc0.
  assert (L : light_check json_memo_peg = true) by (vm_compute; reflexivity).
  assert (M : memo_text json_memo_peg = true) by (vm_compute; reflexivity).
  destruct (light_check_ok json_memo_peg L bufsz0 CS0 check0 thr0 code cs0 Hb0 Hk0 Hc0) as (l & rest & f & o & st & Hr & H1 & H2). exists f, o, st. split; [exact H1|].
  rewrite Hr in B. rewrite forallb_forall in B.
  intro capg. destruct (H2 capg) as (P1 & P2 & P3 & _). destruct (memo_text_ok json_memo_peg l rest capg L M Hr) as (_ & _ & Q3). eexists. eexists. split; [exact P1|].
  assert (T : forall s, exists r w, peg s no_check [] (grammar_of capg l) 0 ([], tt) r w) by (intro s; exact (C15_total s unit no_check _ 0 (no_check_ok s) P3 (Nat.le_0_l _) ([], tt))).
  assert (Bc : session_is (grammar_of capg l) (snd (denote_defs l 0)) s1 e1 e2 b = true) by (apply B; destruct capg; [right; left|left]; reflexivity). apply session_is_ok in Bc.
  destruct (session_ok _ C T _ s1 e1 e2 b Q3 Bc O1 O2 G C1 C2) as (pcode & tbl & o' & st' & A1 & A2 & A3 & A4).
  exists pcode, tbl, 4000, o', st'. auto.
Qed.
(** [9,10,1] becomes [9,0,1] and [9,0,1.5]; both texts that were parsed before are clean *)
Example ex_history : accepted json_memo_peg (session_gives (fun s => clean s = true) (list_byte_of_string "[9,10,1]") (Edit 3 4 []) (Edit 6 6 [x2e; x35]) true).
Proof. apply session_accepted; [vm_compute; reflexivity|split; vm_compute; repeat constructor|split; vm_compute; repeat constructor|vm_compute; repeat constructor|vm_compute; reflexivity|vm_compute; reflexivity]. Qed.

(** C46 does not hold without that: [9,10,1e+] is parsed, becomes [9,20,1e+], is parsed, becomes [9,20,1e+5], and is then
    refused although it is JSON *)
Definition first_text : list byte := list_byte_of_string "[9,10,1e+]".
Definition first_edit : edit := Edit 3 4 [x32].
Definition second_edit : edit := Edit 9 9 [x35].
Definition last_text : list byte := list_byte_of_string "[9,20,1e+5]".
Theorem C46_rounds_refuted : edit_text (edit_text first_text first_edit) second_edit = last_text /\ rfc_json last_text /\ peg_json last_text /\
  accepted json_memo_peg (session_gives (fun _ => True) first_text first_edit second_edit false).
Proof.
  split; [vm_compute; reflexivity|]. split; [|split; [apply json_check_ok; vm_compute; reflexivity|]].
  2: { apply session_accepted; [vm_compute; reflexivity|split; vm_compute; repeat constructor|split; vm_compute; repeat constructor|vm_compute; repeat constructor|exact Logic.I|exact Logic.I]. }
  apply (e_value _ _ _ [] last_text []); [constructor| |constructor]. apply (v_array _ _ _ (list_byte_of_string "9,20,1e+5")). apply (es_more _ _ _ [x39] (list_byte_of_string "20,1e+5")); [|apply (es_more _ _ _ (list_byte_of_string "20") (list_byte_of_string "1e+5")); [|apply es_one]].
  - apply (e_value _ _ _ [] [x39] []); [constructor| |constructor]. apply v_number. exists [], [x39], [], []. repeat split; first [left; reflexivity|apply int_other; [reflexivity|constructor]].
  - apply (e_value _ _ _ [] (list_byte_of_string "20") []); [constructor| |constructor]. apply v_number. exists [], (list_byte_of_string "20"), [], []. repeat split; first [left; reflexivity|apply int_other; [reflexivity|repeat constructor]].
  - apply (e_value _ _ _ [] (list_byte_of_string "1e+5") []); [constructor| |constructor]. apply v_number. exists [], [x31], [], (list_byte_of_string "e+5"). split; [reflexivity|]. split; [left; reflexivity|]. split; [apply int_other; [reflexivity|constructor]|]. split; [left; reflexivity|]. right.
    exists x65, [x2b], [x35]. split; [reflexivity|]. split; [reflexivity|]. split; [right; left; reflexivity|]. split; [discriminate|repeat constructor].
Qed.
Print Assumptions C46_rounds_refuted.
