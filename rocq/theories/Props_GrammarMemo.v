(** Properties C44 and C45, continued: the shipped grammars with a memoization table. *)
From Coq Require Import ZArith String.
From Verif Require Import Base Model_Charset Model_Isa Model_Capture Model_Input Model_Code Model_VM Model_Pattern Model_Table Model_Re Model_Grammars Spec_Peg Spec_Scope Spec_Run Spec_Wf Spec_Memo Spec_Re Spec_Grammars Spec_GrammarSize Spec_GrammarMemo Spec_Json Proof_Memo4 Proof_Grammars Proof_GrammarSize Proof_Thresholds Proof_Shipped Proof_GrammarMemo Proof_Json3 Props_Memo Props_Wf Props_Grammars.
Local Open Scope nat_scope.

(** Exec with a table that was used for any number of parses of the same text stops, with the result that the semantics gives *)
Definition memoizes (p : pattern) : Prop :=
  forall thr pcode threshold bufsz CS check (t : list byte) tbl (cs : CS), compiled_memo thr p pcode -> 0 < bufsz -> check_ok check t ->
    after_runs bufsz check threshold p pcode t tt_new tbl ->
    exists f o st r w, vm_exec bufsz (tree_table threshold) check None f pcode t tbl cs = Some (ROk o st) /\
      peg t check [] p 0 ([], cs) r w /\ agrees None r o.
(** the same after the text was parsed with a new table, edited, and parsed again any number of times; all edits after the
    first one make the text longer or keep its length *)
Definition reparses (p : pattern) : Prop :=
  forall thr pcode threshold bufsz CS check (s : list byte) es f0 (cs : CS) o0 st0 t1 tbl cs0, compiled_memo thr p pcode -> 0 < bufsz ->
    check_ok check s -> check_ok check (edits_text s es) -> edits_ok s es -> Forall gentle (tl es) ->
    vm_exec bufsz (tree_table threshold) check None f0 pcode s tt_new cs = Some (ROk o0 st0) ->
    after_edits (m_tbl st0) es t1 -> after_runs bufsz check threshold p pcode (edits_text s es) t1 tbl ->
    exists f o st r w, vm_exec bufsz (tree_table threshold) check None f pcode (edits_text s es) tbl cs0 = Some (ROk o st) /\
      peg (edits_text s es) check [] p 0 ([], cs0) r w /\ agrees None r o.
(** C44: with a table the shipped grammars give the same results, also after one round of edits *)
Theorem C44_memo_check_partial : forall s, light_check s = true -> memo_text s = true -> accepted s (fun p => memoizes p /\ reparses p).
Proof.
  intros s L M bufsz0 CS0 check0 thr0 code0 cs0 Hb0 Hk0 Hc0. destruct (light_check_ok s L bufsz0 CS0 check0 thr0 code0 cs0 Hb0 Hk0 Hc0) as (l & rest & f & o & st & Hr & H1 & H2). exists f, o, st. split; [exact H1|].
  intro capg. destruct (H2 capg) as (P1 & P2 & P3 & _). destruct (memo_text_ok s l rest capg L M Hr) as (Q1 & Q2 & Q3). eexists. eexists. split; [exact P1|]. split.
  - intros thr pcode threshold bufsz CS check t tbl cs Hpc Hb Hk Ht. destruct (C15_total t CS check _ 0 Hk P3 (Nat.le_0_l _) ([], cs)) as (r & [errs cs'] & HR).
    destruct (C21_stops_partial bufsz CS check thr threshold _ pcode t tbl cs r errs cs' Hb Hk P2 Hpc (once_agree' _ _ _ _ Q1) (rec_pure' _ _ _ _ Q2) Ht HR) as (f' & o' & st' & E & A & _). exists f', o', st', r, (errs, cs'). auto.
  - intros thr pcode threshold bufsz CS check t es f0 cs o0 st0 t1 tbl cs1 Hpc Hb Hk Hk' He Hg Hx Hae Ht. destruct (C15_total t CS check _ 0 Hk P3 (Nat.le_0_l _) ([], cs)) as (r0 & w0 & HR0).
    destruct (C15_total (edits_text t es) CS check _ 0 Hk' P3 (Nat.le_0_l _) ([], cs1)) as (r & [errs cs'] & HR).
    destruct (C22_stops_partial bufsz CS check thr threshold _ pcode t f0 cs r0 w0 o0 st0 es t1 tbl cs1 r errs cs' Hb Hk Hk' P2 Hpc Q1 Q2 HR0 Hx He Hg Hae Ht HR) as (f' & o' & st' & E & A & _). exists f', o', st', r, (errs, cs'). auto.
Qed.
Print Assumptions C44_memo_check_partial.
Theorem C44_memo_partial : Forall (fun s => accepted s (fun p => memoizes p /\ reparses p)) shipped.
Proof.
  apply Forall_forall. intros s Hs. apply C44_memo_check_partial; [exact (proj1 (Forall_forall _ _) shipped_light s Hs)|exact (proj1 (Forall_forall _ _) shipped_memo s Hs)].
Qed.
Print Assumptions C44_memo_partial.
(** such programs exist *)
Theorem C44_memo_encodes : forall thr n s, light_check s = true -> text_fits thr n s = true -> memo_text s = true -> accepted s (fun p => exists pcode, compiled_memo thr p pcode).
Proof.
  intros thr n s L B M bufsz CS0 check0 thr0 code cs0 Hb Hk0 Hc. unfold text_fits in B.
  destruct (light_check_ok s L bufsz CS0 check0 thr0 code cs0 Hb Hk0 Hc) as (l & rest & f & o & st & Hr & H1 & H2). exists f, o, st. split; [exact H1|]. rewrite Hr in B. rewrite forallb_forall in B.
  intro capg. destruct (H2 capg) as (P1 & _ & _ & P4). destruct (memo_text_ok s l rest capg L M Hr) as (_ & _ & Q3). eexists. eexists. split; [exact P1|].
  destruct (grammar_fits_ok thr n (grammar_of capg l) (snd (denote_defs l 0)) (B capg ltac:(destruct capg; cbn; auto)) P4) as (c & st' & pcode & E1 & E2).
  exists pcode. exists (S n), (CState 0 (snd (denote_defs l 0))), c, st'. auto.
Qed.
Print Assumptions C44_memo_encodes.
Theorem C44_memo_default : forall thr, Forall (fun s => accepted s (fun p => exists pcode, compiled_memo thr p pcode)) shipped.
Proof.
  intro thr. apply Forall_forall. intros s Hs.
  apply (C44_memo_encodes thr 100); [exact (proj1 (Forall_forall _ _) shipped_light s Hs)|apply (text_fits_from 100), (proj1 (Forall_forall _ _) shipped_fits s Hs)|exact (proj1 (Forall_forall _ _) shipped_memo s Hs)].
Qed.
Print Assumptions C44_memo_default.
(** the check refuses a memoized pattern whose result depends on more than what is recorded *)
Example ex_memo_refused : map (fun t => memo_text (list_byte_of_string t)) ["A <- {{ 'a' B }}*
B <- !. / 'b'"; "A <- {{ 'a' }}* !."; "A <- 'a'* !."]%string = [false; true; true].
Proof. vm_compute. reflexivity. Qed.

(** C45: with a table, json.peg and json_memo.peg recognise the same language as without: on a text that was parsed before
    with that table, *)
Definition recognises_memo (p : pattern) (L : list byte -> Prop) : Prop :=
  forall thr pcode threshold bufsz CS check (t : list byte) tbl (cs : CS), compiled_memo thr p pcode -> 0 < bufsz -> check_ok check t ->
    after_runs bufsz check threshold p pcode t tt_new tbl ->
    exists f o st, vm_exec bufsz (tree_table threshold) check None f pcode t tbl cs = Some (ROk o st) /\
      (o_ok o = true <-> L t) /\ (o_ok o = true -> o_pos o = List.length t).
(** and on a text that was parsed and edited *)
Definition recognises_edited (p : pattern) (L : list byte -> Prop) : Prop :=
  forall thr pcode threshold bufsz CS check (s : list byte) es f0 (cs : CS) o0 st0 t1 tbl cs0, compiled_memo thr p pcode -> 0 < bufsz ->
    check_ok check s -> check_ok check (edits_text s es) -> edits_ok s es -> Forall gentle (tl es) ->
    vm_exec bufsz (tree_table threshold) check None f0 pcode s tt_new cs = Some (ROk o0 st0) ->
    after_edits (m_tbl st0) es t1 -> after_runs bufsz check threshold p pcode (edits_text s es) t1 tbl ->
    exists f o st, vm_exec bufsz (tree_table threshold) check None f pcode (edits_text s es) tbl cs0 = Some (ROk o st) /\
      (o_ok o = true <-> L (edits_text s es)) /\ (o_ok o = true -> o_pos o = List.length (edits_text s es)).
Theorem C45_memo_partial : Forall (fun text => accepted text (fun p => recognises_memo p peg_json /\ recognises_edited p peg_json)) [json_peg; json_memo_peg].
Proof.
  apply Forall_forall. intros text Ht bufsz0 CS0 check0 thr0 code cs0 Hb0 Hk0 Hc0.
  assert (L : light_check text = true) by (destruct Ht as [<-|[<-|[]]]; vm_compute; reflexivity).
  assert (M : memo_text text = true) by (destruct Ht as [<-|[<-|[]]]; vm_compute; reflexivity).
  destruct (light_check_ok text L bufsz0 CS0 check0 thr0 code cs0 Hb0 Hk0 Hc0) as (l & rest & f & o & st & Hr & H1 & H2). exists f, o, st. split; [exact H1|].
  intro capg. destruct (H2 capg) as (P1 & P2 & P3 & _). destruct (memo_text_ok text l rest capg L M Hr) as (Q1 & Q2 & Q3). eexists. eexists. split; [exact P1|]. rewrite (rules_are text capg l rest Ht Hr) in *. split.
  - intros thr pcode threshold bufsz CS check t tbl cs Hpc Hb Hk Htb.
    destruct (json_peg_is t CS check text capg ([], cs) Ht) as [[J (ts & HR)]|[J HR]].
    + destruct (C21_stops_partial bufsz CS check thr threshold _ pcode t tbl cs _ _ _ Hb Hk P2 Hpc (once_agree' _ _ _ _ Q1) (rec_pure' _ _ _ _ Q2) Htb HR) as (f' & o' & st' & E & (A1 & A2 & _) & _). exists f', o', st'. split; [exact E|]. split; [tauto|auto].
    + destruct (C21_stops_partial bufsz CS check thr threshold _ pcode t tbl cs _ _ _ Hb Hk P2 Hpc (once_agree' _ _ _ _ Q1) (rec_pure' _ _ _ _ Q2) Htb HR) as (f' & o' & st' & E & (A1 & _) & _). exists f', o', st'. split; [exact E|]. rewrite A1. split; [split; [discriminate|tauto]|discriminate].
  - intros thr pcode threshold bufsz CS check t es f0 cs o0 st0 t1 tbl cs1 Hpc Hb Hk Hk' He Hg Hx Hae Htb. destruct (C15_total t CS check _ 0 Hk P3 (Nat.le_0_l _) ([], cs)) as (r0 & w0 & HR0).
    destruct (json_peg_is (edits_text t es) CS check text capg ([], cs1) Ht) as [[J (ts & HR)]|[J HR]].
    + destruct (C22_stops_partial bufsz CS check thr threshold _ pcode t f0 cs r0 w0 o0 st0 es t1 tbl cs1 _ _ _ Hb Hk Hk' P2 Hpc Q1 Q2 HR0 Hx He Hg Hae Htb HR) as (f' & o' & st' & E & (A1 & A2 & _) & _). exists f', o', st'. split; [exact E|]. split; [tauto|auto].
    + destruct (C22_stops_partial bufsz CS check thr threshold _ pcode t f0 cs r0 w0 o0 st0 es t1 tbl cs1 _ _ _ Hb Hk Hk' P2 Hpc Q1 Q2 HR0 Hx He Hg Hae Htb HR) as (f' & o' & st' & E & (A1 & _) & _). exists f', o', st'. split; [exact E|]. rewrite A1. split; [split; [discriminate|tauto]|discriminate].
Qed.
Print Assumptions C45_memo_partial.
