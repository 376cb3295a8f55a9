(** Property C45: what the shipped grammars for JSON recognise. *)
From Coq Require Import ZArith String.
From Verif Require Import Base Model_Charset Model_Isa Model_Capture Model_Input Model_Code Model_VM Model_Pattern Model_Re Model_Grammars Spec_Peg Spec_Scope Spec_Run Spec_Wf Spec_Re Spec_Grammars Spec_Json Proof_Props2 Proof_Props3 Proof_Grammars Proof_Json3 Props_Grammars.
Local Open Scope nat_scope.

(** Exec with the pattern [p] stops on every text, and matches exactly the texts with the property [L], all of each *)
Definition recognises (p : pattern) (L : list byte -> Prop) : Prop :=
  forall thr pcode bufsz CS check intrvl (t : list byte) (cs : CS), compiled thr p pcode -> 0 < bufsz -> check_ok check t ->
    exists f o st, vm_exec bufsz none_table check intrvl f pcode t tt cs = Some (ROk o st) /\
      (o_ok o = true <-> L t) /\ (o_ok o = true -> o_pos o = List.length t).
(** C45: json.peg and json_memo.peg recognise the language [peg_json], which is JSON up to white space, the characters
    after a backslash, and strings that start with two escapes *)
Theorem C45_recognises : Forall (fun text => accepted text (fun p => recognises p peg_json)) [json_peg; json_memo_peg].
Proof.
  apply Forall_forall. intros text Ht bufsz0 CS0 check0 thr0 code cs0 Hb0 Hk0 Hc0.
  assert (C : light_check text = true) by (destruct Ht as [<-|[<-|[]]]; vm_compute; reflexivity).
  destruct (light_check_ok text C bufsz0 CS0 check0 thr0 code cs0 Hb0 Hk0 Hc0) as (l & rest & f & o & st & Hr & H1 & H2). exists f, o, st. split; [exact H1|]. intro capg. destruct (H2 capg) as (P1 & P2 & P3 & _).
  eexists. eexists. split; [exact P1|]. rewrite (rules_are text capg l rest Ht Hr) in *. intros thr pcode bufsz CS check intrvl t cs Hpc Hb Hk.
  destruct (json_peg_is t CS check text capg ([], cs) Ht) as [[J (ts & H)]|[J H]].
  - destruct (exec_some bufsz Hb CS check t Hk thr _ pcode intrvl cs _ _ _ P2 Hpc H) as (f' & o' & st' & E & (A1 & A2 & _) & _). exists f', o', st'. split; [exact E|]. split; [tauto|auto].
  - destruct (exec_some bufsz Hb CS check t Hk thr _ pcode intrvl cs _ _ _ P2 Hpc H) as (f' & o' & st' & E & (A1 & _) & _). exists f', o', st'. split; [exact E|]. rewrite A1. split; [split; [discriminate|tauto]|discriminate].
Qed.
Print Assumptions C45_recognises.
(** a decision procedure for the language *)
Theorem C45_decided : forall t, json_check t = true <-> peg_json t.
Proof. exact json_check_ok. Qed.
Print Assumptions C45_decided.
Example ex_json : map (fun t => json_check (list_byte_of_string t))
  [" { ""a"" : [ 1, -2.5e+3, true , [ ] ] , ""b"": ""x\né\t\ty"", """": {} } "; "01"; "1 2"; "[1,]"; "{""a"":}"; "-"; "nul"; "null"]%string
  = [true; false; false; false; false; false; false; true].
Proof. vm_compute. reflexivity. Qed.
(** JSON as in RFC 8259, without escaped slashes and without strings that start with two escapes, is matched *)
Theorem C45_rfc_partial : forall t, element rfc_blank (fun b => rfc_letter b && negb (byte_eqb b x2f)) peg_allowed t -> rfc_json t /\ peg_json t.
Proof.
  intros t H. split.
  - revert H. apply element_mono; auto. intros b H. apply andb_prop in H. tauto.
  - revert H. apply element_mono; auto; intro b; destruct b; vm_compute; congruence.
Qed.
Print Assumptions C45_rfc_partial.
Example ex_rfc : element rfc_blank (fun b => rfc_letter b && negb (byte_eqb b x2f)) peg_allowed (list_byte_of_string " [0,{""x\n"":-12.5e-3} ]").
Proof.
  apply (e_value _ _ _ [x20] (list_byte_of_string "[0,{""x\n"":-12.5e-3} ]") []); [repeat constructor| |constructor].
  apply (v_array _ _ _ (list_byte_of_string "0,{""x\n"":-12.5e-3} ")). apply (es_more _ _ _ [x30] (list_byte_of_string "{""x\n"":-12.5e-3} ")).
  - apply (e_value _ _ _ [] [x30] []); [constructor| |constructor]. apply v_number. exists [], [x30], [], []. repeat split; first [left; reflexivity|constructor].
  - apply es_one. apply (e_value _ _ _ [] (list_byte_of_string "{""x\n"":-12.5e-3}") [x20]); [constructor| |repeat constructor].
    apply (v_object _ _ _ (list_byte_of_string """x\n"":-12.5e-3")). apply ms_one. apply (m_pair _ _ _ [] (list_byte_of_string """x\n""") [] (list_byte_of_string "-12.5e-3")); [constructor| |constructor|].
    + exists [false; true], (list_byte_of_string "x\n"). split; [|split; [exact Logic.I|reflexivity]]. apply ch_plain; [reflexivity|]. apply ch_letter; [reflexivity|]. apply ch_nil.
    + apply (e_value _ _ _ [] (list_byte_of_string "-12.5e-3") []); [constructor| |constructor]. apply v_number. exists [x2d], (list_byte_of_string "12"), (list_byte_of_string ".5"), (list_byte_of_string "e-3"). split; [reflexivity|]. split; [right; reflexivity|]. split; [apply int_other; [reflexivity|repeat constructor]|]. split; right.
      * exists [x35]. split; [reflexivity|]. split; [discriminate|repeat constructor].
      * exists x65, [x2d], [x33]. split; [reflexivity|]. split; [reflexivity|]. split; [right; right; reflexivity|]. split; [discriminate|repeat constructor].
Qed.
(** the remaining JSON texts are not all matched: "\n\n" and "\/" are JSON *)
Theorem C45_complete_refuted : exists t1 t2, rfc_json t1 /\ ~ peg_json t1 /\ rfc_json t2 /\ ~ peg_json t2 /\
  t1 = list_byte_of_string """\n\n"""%string /\ t2 = list_byte_of_string """\/"""%string.
Proof.
  exists [x22; x5c; x6e; x5c; x6e; x22], [x22; x5c; x2f; x22]. split; [|split; [|split; [|split; [|split; reflexivity]]]].
  - apply (e_value _ _ _ [] [x22; x5c; x6e; x5c; x6e; x22] []); [constructor| |constructor]. apply v_string. exists [true; true], [x5c; x6e; x5c; x6e]. split; [|split; [exact Logic.I|reflexivity]]. repeat (apply ch_letter; [reflexivity|]). apply ch_nil.
  - rewrite <- json_check_ok. vm_compute. discriminate.
  - apply (e_value _ _ _ [] [x22; x5c; x2f; x22] []); [constructor| |constructor]. apply v_string. exists [true], [x5c; x2f]. split; [|split; [exact Logic.I|reflexivity]]. repeat (apply ch_letter; [reflexivity|]). apply ch_nil.
  - rewrite <- json_check_ok. vm_compute. discriminate.
Qed.
Print Assumptions C45_complete_refuted.
(** and a text is matched that is not JSON: a vertical tab before 0 *)
Theorem C45_sound_refuted : exists t, peg_json t /\ ~ rfc_json t.
Proof.
  exists [x0b; x30]. split; [apply json_check_ok; vm_compute; reflexivity|]. intro H. inversion H as [w u w' Hw Hu Hw' E]. destruct w as [|b w].
  - destruct u as [|c u]; [cbn in E; subst w'; inversion Hw' as [|? ? Hc]; discriminate Hc|]. injection E as -> _. inversion Hu as [? Hn|? (l & v & _ & _ & Hj)| | | | | | |]; subst; try discriminate.
    destruct Hn as (m & i & f & e & En & Hm & Hi & _). destruct Hm as [-> | ->]; [|discriminate]. destruct Hi as [|d ds Hd]; [discriminate|]. injection En as <- _. discriminate.
  - injection E as -> _. inversion Hw as [|? ? Hc]. discriminate Hc.
Qed.
Print Assumptions C45_sound_refuted.
(** re.peg does not recognise what package re reads: the grammar A <- 'a' *)
Theorem C45_re_refuted : exists g, accepted g (fun _ => True) /\ accepted re_peg (fun p =>
  forall thr pcode bufsz CS check intrvl (cs : CS), compiled thr p pcode -> 0 < bufsz -> check_ok check g ->
    exists f o st, vm_exec bufsz none_table check intrvl f pcode g tt cs = Some (ROk o st) /\ o_ok o = false).
Proof.
  exists (list_byte_of_string "A <- 'a'"%string). split.
  - intros bufsz CS check thr code cs Hb Hk Hc. destruct (C44_check_partial (list_byte_of_string "A <- 'a'"%string) ltac:(vm_compute; reflexivity) bufsz CS check thr code cs Hb Hk Hc) as (f & o & st & H1 & H2). exists f, o, st. split; [exact H1|]. intro capg. destruct (H2 capg) as (p & m & H & _). eauto.
  - intros bufsz0 CS0 check0 thr0 code cs0 Hb0 Hk0 Hc0.
    destruct (light_check_ok re_peg ltac:(vm_compute; reflexivity) bufsz0 CS0 check0 thr0 code cs0 Hb0 Hk0 Hc0) as (l & rest & f & o & st & Hr & H1 & H2). exists f, o, st. split; [exact H1|]. intro capg. destruct (H2 capg) as (P1 & P2 & P3 & _).
    eexists. eexists. split; [exact P1|]. intros thr pcode bufsz CS check intrvl cs Hpc Hb Hk.
    assert (H : peg (list_byte_of_string "A <- 'a'"%string) check [] (grammar_of capg l) 0 ([], cs) RFail ([], cs)).
    { assert (E : l = match read re_peg with Yes (TGrammar l) _ => l | _ => [] end) by (rewrite Hr; reflexivity). subst l. destruct capg; eapply (Proof_Eval.eval_sound _ _ _ 100); vm_compute; reflexivity. }
    destruct (exec_some bufsz Hb CS check _ Hk thr _ pcode intrvl cs _ _ _ P2 Hpc H) as (f' & o' & st' & E & (A1 & _) & _). eauto.
Qed.
Print Assumptions C45_re_refuted.
