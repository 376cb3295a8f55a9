(** C47: several goroutines may parse a text at the same time with one memoization table. *)
From Coq Require Import ZArith.
From Verif Require Import Base Model_Charset Model_Isa Model_Capture Model_Input Model_Code Model_VM Model_Pattern Spec_Peg Spec_Scope Spec_Run Model_Interval Spec_Interval Model_Table Spec_Memo Model_Share Proof_Eval Proof_Memo4 Proof_Share4 Proof_Share5 Props_Memo.
Local Open Scope nat_scope.

(** C47: whatever the order in which the operations of the goroutines on the table happen, each goroutine gets the match,
    the end, the captures, the errors and the state of its checkers that the semantics gives, as if it were alone.
    Missing: the captures of an entry share memory between the goroutines, and parsing reads and writes some of it
    without the mutex; here captures are lists, as in C21.  The text and the program are the same for all. *)
Theorem C47_result_partial : forall bufsz CS check thr threshold p code s t (cs : nat -> CS) l me r errs cs',
  0 < bufsz -> check_ok check s -> supported p -> compiled_memo thr p code -> memo_agree s check p -> memo_pure s check p ->
  after_runs bufsz check threshold p code s tt_new t ->
  (forall k, exists r w', peg s check [] p 0 ([], cs k) r w') ->
  interleaving bufsz check threshold code s t cs l ->
  peg s check [] p 0 ([], cs me) r (errs, cs') ->
  exists f o st, vm_exec bufsz (shared_table threshold me) check None f code s (view me t l) (cs me) = Some (ROk o st) /\
    agrees None r o /\ o_errs o = errs /\ m_cs st = cs'.
Proof.
  intros bufsz CS check thr threshold p code s t cs l me r errs cs' Hb Hk Hs Hc Ha Hp Ht Hd Hl.
  apply (share_some bufsz Hb CS check thr threshold p code s Hk Ha Hp cs Hd t l); [|exact Hl]. eapply good_runs; try eassumption. apply good_new; assumption.
Qed.
Print Assumptions C47_result_partial.
(** the same when the text was edited once before *)
Theorem C47_edited_partial : forall bufsz CS check thr threshold p code s f0 (cs0 : CS) r0 w0 o0 st0 es t1 t cs l me r errs cs',
  0 < bufsz -> check_ok check s -> check_ok check (edits_text s es) -> supported p -> compiled_memo thr p code -> memo_once p -> memo_recorded p ->
  peg s check [] p 0 ([], cs0) r0 w0 -> vm_exec bufsz (tree_table threshold) check None f0 code s tt_new cs0 = Some (ROk o0 st0) ->
  edits_ok s es -> Forall gentle (tl es) ->
  after_edits (m_tbl st0) es t1 -> after_runs bufsz check threshold p code (edits_text s es) t1 t ->
  (forall k, exists r w', peg (edits_text s es) check [] p 0 ([], cs k) r w') ->
  interleaving bufsz check threshold code (edits_text s es) t cs l ->
  peg (edits_text s es) check [] p 0 ([], cs me) r (errs, cs') ->
  exists f o st, vm_exec bufsz (shared_table threshold me) check None f code (edits_text s es) (view me t l) (cs me) = Some (ROk o st) /\
    agrees None r o /\ o_errs o = errs /\ m_cs st = cs'.
Proof.
  intros bufsz CS check thr threshold p code s f0 cs0 r0 w0 o0 st0 es t1 t cs l me r errs cs' Hb Hk Hk' Hs Hc Ho Hr Hp Hx He Hg Ha Ht Hd Hl.
  apply (share_some bufsz Hb CS check thr threshold p code _ Hk' (once_agree' _ _ _ _ Ho) (rec_pure' _ _ _ _ Hr) cs Hd t l); [|exact Hl].
  eapply good_runs; try eassumption; [apply once_agree'|apply rec_pure'|]; try assumption. eapply good_edits; eassumption.
Qed.
Print Assumptions C47_edited_partial.
(** a later parse that uses the table alone is right too, whether or not the goroutines have finished *)
Theorem C47_later_partial : forall bufsz CS check thr threshold p code s t (cs : nat -> CS) l cs0 r errs cs',
  0 < bufsz -> check_ok check s -> supported p -> compiled_memo thr p code -> memo_agree s check p -> memo_pure s check p ->
  after_runs bufsz check threshold p code s tt_new t ->
  (forall k, exists r w', peg s check [] p 0 ([], cs k) r w') ->
  interleaving bufsz check threshold code s t cs l ->
  peg s check [] p 0 ([], cs0) r (errs, cs') ->
  exists f o st, vm_exec bufsz (tree_table threshold) check None f code s (acts_do threshold t l) cs0 = Some (ROk o st) /\
    agrees None r o /\ o_errs o = errs /\ m_cs st = cs'.
Proof.
  intros bufsz CS check thr threshold p code s t cs l cs0 r errs cs' Hb Hk Hs Hc Ha Hp Ht Hd Hl.
  apply (good_some bufsz Hb CS check thr threshold p code s Hk Ha Hp). apply (share_good bufsz Hb CS check thr threshold p code s Hk Ha Hp cs Hd t l); [|exact Hl].
  eapply good_runs; try eassumption. apply good_new; assumption.
Qed.
Print Assumptions C47_later_partial.
(** What [interleaving] and [view] mean.  An operation that the order [l] lists for a goroutine is one that it does in its
    run, at that place: after the same operations of all goroutines.  No condition on the pattern is needed. *)
Theorem C47_order : forall bufsz CS check threshold code s t (cs : nat -> CS) l1 me o l2 f out st,
  interleaving bufsz check threshold code s t cs (l1 ++ (me, o) :: l2) ->
  vm_exec bufsz (shared_table threshold me) check None f code s (view me t (l1 ++ (me, o) :: l2)) (cs me) = Some (ROk out st) ->
  exists m, sh_log (m_tbl st) = l1 ++ (me, o) :: m.
Proof. intros. eapply own_order; [eassumption|reflexivity|eassumption]. Qed.
Print Assumptions C47_order.
(** and the table of a goroutine is always the one that the operations so far, of all goroutines, have made *)
Theorem C47_one_table : forall bufsz CS check threshold code s t (cs : nat -> CS) l me f out st,
  vm_exec bufsz (shared_table threshold me) check None f code s (view me t l) (cs me) = Some (ROk out st) ->
  sh_tbl (m_tbl st) = acts_do threshold t (sh_log (m_tbl st)).
Proof. intros. eapply own_table. eassumption. Qed.
Print Assumptions C47_one_table.

(** the operation that goroutine [me] does after [l] *)
Definition next_act (me : nat) (l : list act) : option act :=
  nth_error (sh_log (m_tbl (state_after (vm_step 4 (shared_table 0 me) no_check None m_code) 400
    (init_state 4 (shared_table 0 me) None m_text (view me tt_new l) tt)))) (List.length l).
Fixpoint play (turns : list nat) (l : list act) : list act :=
  match turns with
  | [] => l
  | me :: turns => match next_act me l with Some a => play turns (l ++ [a]) | None => l end
  end.
(** "ab (c d) e": goroutine 1 starts after two operations of goroutine 0, then they take turns *)
Definition turns : list nat := [0; 0; 1; 0; 0; 1; 1; 0; 1; 0; 0; 1; 0; 1; 1; 0].
Definition s_acts : list act := Eval vm_compute in play turns [].
Ltac one_more n := match goal with |- interleaving _ _ _ _ _ _ _ ?l =>
  let i := eval vm_compute in (firstn (List.length l - 1) l) in let z := eval vm_compute in (skipn (List.length l - 1) l) in
  match z with [(?me, ?o)] => change l with (i ++ [(me, o)]); apply (il_more _ _ _ _ _ _ _ i me o n); [|vm_compute; reflexivity] end end.
Example s_interleaving : map fst s_acts = turns /\ interleaving 4 no_check 0 m_code m_text tt_new (fun _ => tt) s_acts.
Proof. split; [reflexivity|]. unfold s_acts. do 16 one_more 400. apply il_none. Qed.
(** goroutine 1 stores fewer entries than a parse alone, because it finds those of goroutine 0; the results are the same *)
Definition puts (l : list act) (me : nat) : nat := List.length (filter (fun a => (fst a =? me) && match snd a with TPut _ _ _ _ _ _ => true | TGet _ _ => false end) l).
Definition s_log (me : nat) (l : list act) : list act :=
  match vm_exec 4 (shared_table 0 me) no_check None 400 m_code m_text (view me tt_new l) tt with Some (ROk _ st) => sh_log (m_tbl st) | _ => [] end.
Example s_run : puts (s_log 0 []) 0 = 14 /\ puts (s_log 1 s_acts) 1 = 13 /\ firstn 15 (s_log 1 s_acts) = firstn 15 s_acts /\
  exists o st, vm_exec 4 (shared_table 0 1) no_check None 400 m_code m_text (view 1 tt_new s_acts) tt = Some (ROk o st) /\
    o_pos o = 10 /\ option_map flat1 (o_capt o) = Some m_capt.
Proof. split; [reflexivity|]. split; [reflexivity|]. split; [reflexivity|]. do 2 eexists. split; [vm_compute; reflexivity|]. split; reflexivity. Qed.

(** But an edit after two goroutines have parsed can leave a wrong entry, even if both start with a new table and it is the
    first edit (compare C22).  Goroutine 1 finds the entry that goroutine 0 has made for a part, so it does not look as far
    as that, and stores an entry around it that ends too early. *)
Definition e_text : list byte := [x78; x61; x62; x63; x65].
Definition e_text2 : list byte := [x78; x61; x62; x63; x64].
Fixpoint r_play (turns : list nat) (l : list act) : list act :=
  match turns with
  | [] => l
  | me :: turns =>
      match nth_error (sh_log (m_tbl (state_after (vm_step 4 (shared_table 0 me) no_check None (code_of r_p)) 100
              (init_state 4 (shared_table 0 me) None e_text (view me tt_new l) tt)))) (List.length l) with
      | Some a => r_play turns (l ++ [a])
      | None => l
      end
  end.
Definition e_acts : list act := Eval vm_compute in r_play [0; 0; 0; 1; 0; 1; 1] [].
Theorem C47_edit_refuted : exists p code s s2 e l,
  supported p /\ compiled_memo 100 p code /\ memo_once p /\ memo_recorded p /\
  (exists r w', peg s no_check [] p 0 ([], tt) r w') /\ interleaving 4 no_check 0 code s tt_new (fun _ => tt) l /\
  edit_ok s e /\ grows e /\ s2 = edit_text s e /\ peg s2 no_check [] p 0 ([], tt) RFail ([], tt) /\
  exists f o st, vm_exec 4 (tree_table 0) no_check None f code s2 (edits_table (acts_do 0 tt_new l) [e]) tt = Some (ROk o st) /\ o_ok o = true.
Proof.
  exists r_p, (code_of r_p), e_text, e_text2, (Edit 4 5 [x64]), e_acts. destruct r_ok as (R1 & R2 & R3 & R4). repeat (split; [assumption|]).
  split; [do 2 eexists; eapply (eval_sound _ _ _ 30); vm_compute; reflexivity|].
  split; [unfold e_acts; do 7 one_more 100; apply il_none|]. split; [vm_compute; lia|]. split; [vm_compute; lia|]. split; [reflexivity|].
  split; [eapply (eval_sound _ _ _ 30); vm_compute; reflexivity|]. exists 100. do 2 eexists. split; [vm_compute; reflexivity|reflexivity].
Qed.
Print Assumptions C47_edit_refuted.
