(** Properties C59 and C60: what is parsed may be a byte slice, a stream or a rope, also one that is edited
    and one that several goroutines read. *)
From Coq Require Import ZArith.
From Verif Require Import Base Model_Charset Model_Isa Model_Capture Model_Code Model_VM Model_Pattern Model_Table Model_Input Model_Reader Model_Rope Model_Source Spec_Peg Spec_Run Spec_Memo Spec_Input Spec_Source Spec_Rope Spec_Editor Proof_Reader Proof_Source Proof_Editor Proof_Eval Props_Rope Props_Memo Props_Rounds.
Local Open Scope nat_scope.

(** C59: any number of goroutines make inputs over one reader and use them; in whatever order their calls
    come, nobody panics, and each sees what it would see if it had the bytes for itself: for a byte slice,
    for a rope that was edited, split and joined in any way, and for a stream whatever sizes its pieces have *)
Theorem C59_bytes : forall bufsz b sched, 0 < bufsz ->
  exists obs, s_run read_bytes bufsz b (fun _ => None) sched = Some obs /\ forall k, of k obs = solo bufsz b None (of k sched).
Proof.
  intros bufsz b sched Hb. apply (run_all read_bytes (fun d => d = b)); [exact Hb| |reflexivity].
  intros r off n ->. exists b. split; reflexivity.
Qed.
Print Assumptions C59_bytes.
Theorem C59_rope : forall bufsz r b sched, 0 < bufsz -> made splits r b ->
  exists obs, s_run read_rope bufsz r (fun _ => None) sched = Some obs /\ forall k, of k obs = solo bufsz b None (of k sched).
Proof.
  intros bufsz r b sched Hb H. apply (run_all read_rope (fun x => made splits x b)); [exact Hb| |exact H].
  intros x off n M. exists x. split; [apply rope_reads; exact M|exact M].
Qed.
Print Assumptions C59_rope.
Theorem C59_stream : forall bufsz r sched, 0 < bufsz ->
  exists obs, s_run read_stream bufsz (from_reader r) (fun _ => None) sched = Some obs /\ forall k, of k obs = solo bufsz (rd_stream r) None (of k sched).
Proof.
  intros bufsz r sched Hb. apply (run_all read_stream (fun w => w_content w = rd_stream r)); [exact Hb| |reflexivity].
  intros w off n M. destruct (stream_reads w off n) as (w' & E & K). exists w'. rewrite <- M. auto.
Qed.
Print Assumptions C59_stream.
(** ... and that is a cursor over the bytes, for goroutines that advance by one byte at a time (see C04) *)
Theorem C59_cursor : forall bufsz data acts, 0 < bufsz ->
  Forall (fun a => match a with Do op => unit_advance op | New => True end) acts ->
  solo bufsz data None acts = solo_cursor data None acts.
Proof. intros bufsz data acts Hb F. apply solo_none; assumption. Qed.
Print Assumptions C59_cursor.
(** two goroutines read a stream that comes in four pieces, through caches of two bytes *)
Example C59_ex :
  s_run read_stream 2 (from_reader (Reader [[x61]; []; [x62; x63]] [x64])) (fun _ => None)
    [(0, New); (1, New); (1, Do (OpSeek 3)); (0, Do OpPeek); (1, Do OpPeek); (0, Do (OpAdvance 1)); (1, Do OpPeekBefore);
     (0, Do (OpAdvance 1)); (0, Do OpPeek); (1, Do (OpAdvance 1)); (1, Do OpPeek); (0, Do (OpSlice 1 9)); (1, New); (1, Do OpPeek)]
  = Some [(1, OBool true); (0, OByte (Some x61)); (1, OByte (Some x64)); (0, OBool true); (1, OByte (Some x63));
     (0, OBool true); (0, OByte (Some x63)); (1, OBool true); (1, OByte None); (0, OBytes [x62; x63; x64]); (1, OByte (Some x61))].
Proof. vm_compute. reflexivity. Qed.

(** C60: an editor keeps its text in a rope.  It edits the rope and tells the table; every edit is possible,
    and every parse of the rope gives the result of the semantics on its bytes, as if it were parsed from
    scratch.
    Missing: what is missing in C22, of which this is a consequence. *)
Theorem C60_edit : forall bufsz CS (check : nat -> CS -> list byte -> list byte -> nat -> Z -> Z -> CS * option nat) threshold p code b r t e,
  session bufsz check threshold p code b r t -> ed_start e <= ed_end e <= rp_len r ->
  exists s r1 r2, rp_value r = Some s /\ rp_remove r (ed_start e) (ed_end e) = Some r1 /\ rp_insert r1 (ed_start e) (ed_text e) = Some r2 /\
    rp_value r2 = Some (edit_text s e).
Proof.
  intros bufsz CS check threshold p code b r t e H He. destruct (session_history _ _ _ _ _ _ _ _ _ H) as (s & M & _).
  pose proof (C30_value _ _ M) as [V L]. rewrite L in He. destruct (C30_remove r s _ _ M He) as (r1 & E1).
  pose proof (made_remove _ _ _ _ _ _ M He E1) as M1.
  assert (P : ed_start e <= List.length (firstn (ed_start e) s ++ skipn (ed_end e) s)) by (rewrite app_length, firstn_length, skipn_length; lia).
  destruct (C30_insert _ _ (ed_start e) (ed_text e) M1 P) as (r2 & E2). exists s, r1, r2. split; [exact V|]. split; [exact E1|]. split; [exact E2|].
  rewrite <- (replace_text s e He). exact (proj1 (C30_value _ _ (made_insert _ _ _ _ _ _ M1 P E2))).
Qed.
Print Assumptions C60_edit.
Theorem C60_stops_partial : forall bufsz CS check thr threshold p code b r s t (cs0 : CS) x errs cs',
  0 < bufsz -> check_ok check s -> supported p -> compiled_memo thr p code ->
  memo_once p -> memo_recorded p -> memo_flat p -> memo_unrepeated p ->
  session bufsz check threshold p code b r t -> rp_value r = Some s ->
  peg s check [] p 0 ([], cs0) x (errs, cs') ->
  exists f o st, vm_exec bufsz (tree_table threshold) check None f code s t cs0 = Some (ROk o st) /\ agrees None x o /\ o_errs o = errs /\ m_cs st = cs'.
Proof.
  intros bufsz CS check thr threshold p code b r s t cs0 x errs cs' Hb Hk Hs Hc Ho Hr Hf Hu H V. destruct (session_history _ _ _ _ _ _ _ _ _ H) as (s' & M & K).
  rewrite (proj1 (C30_value _ _ M)) in V. injection V as ->. eapply C22_history_stops_partial; eassumption.
Qed.
Print Assumptions C60_stops_partial.
Theorem C60_result_partial : forall bufsz CS check thr threshold p code b r s t (cs0 : CS) x errs cs' f y,
  0 < bufsz -> check_ok check s -> supported p -> compiled_memo thr p code ->
  memo_once p -> memo_recorded p -> memo_flat p -> memo_unrepeated p ->
  session bufsz check threshold p code b r t -> rp_value r = Some s ->
  peg s check [] p 0 ([], cs0) x (errs, cs') ->
  vm_exec bufsz (tree_table threshold) check None f code s t cs0 = Some y ->
  exists o st, y = ROk o st /\ agrees None x o /\ o_errs o = errs /\ m_cs st = cs'.
Proof.
  intros bufsz CS check thr threshold p code b r s t cs0 x errs cs' f y Hb Hk Hs Hc Ho Hr Hf Hu H V. destruct (session_history _ _ _ _ _ _ _ _ _ H) as (s' & M & K).
  rewrite (proj1 (C30_value _ _ M)) in V. injection V as ->. eapply C22_history_result_partial; eassumption.
Qed.
Print Assumptions C60_result_partial.
(** the texts of [l_history] in a rope with leaves of two bytes: the first edit takes two bytes away, the
    second puts one in front *)
Definition e_opts : opts := Opts 2 1 1 1 [x0a].
Definition e_edit (r : option rope) (e : edit) : option rope :=
  match r with
  | Some r => match rp_remove r (ed_start e) (ed_end e) with Some r => rp_insert r (ed_start e) (ed_text e) | None => None end
  | None => None
  end.
Definition e_rope1 : option rope := rp_new e_opts l_text1.
Definition e_rope2 : option rope := e_edit e_rope1 (Edit 5 7 []).
Definition e_rope3 : option rope := e_edit e_rope2 (Edit 0 0 [x78]).
Definition e_rope4 : option rope := e_edit e_rope3 (Edit 6 6 [x3d]).
Example e_more : forall p b r t e s x w' r', session 4 no_check 0 p (code_of p) b r t -> rp_value r = Some s ->
  ed_start e <= ed_end e <= rp_len r -> b = false \/ gentle e -> e_edit (Some r) e = Some r' ->
  peg s no_check [] p 0 ([], tt) x w' -> (exists o st, vm_exec 4 (tree_table 0) no_check None 100 (code_of p) s t tt = Some (ROk o st)) ->
  session 4 no_check 0 p (code_of p) true r' (tt_by (table_of p t s) e).
Proof.
  intros p b r t e s x w' r' H V He Hg E Hp (o & st & Hx). cbn [e_edit] in E. destruct (rp_remove r (ed_start e) (ed_end e)) as [r1|] eqn:E1; [|discriminate E].
  unfold tt_by. eapply se_edit; [|exact He|exact Hg|exact E1|exact E].
  unfold table_of. rewrite Hx. eapply se_parse; try eassumption. cbv [check_ok no_check]. intros. discriminate.
Qed.
Example C60_ex : exists r, e_rope4 = Some r /\ rp_value r = Some l_text4 /\ session 4 no_check 0 l_p (code_of l_p) true r l_table4.
Proof.
  destruct e_rope1 as [r1|] eqn:E1; [|vm_compute in E1; discriminate E1].
  destruct e_rope2 as [r2|] eqn:E2; [|vm_compute in E2; discriminate E2].
  destruct e_rope3 as [r3|] eqn:E3; [|vm_compute in E3; discriminate E3].
  destruct e_rope4 as [r4|] eqn:E4; [|vm_compute in E4; discriminate E4].
  assert (V : option_map rp_value e_rope1 = Some (Some l_text1) /\ option_map rp_value e_rope2 = Some (Some l_text2) /\
              option_map rp_value e_rope3 = Some (Some l_text3) /\ option_map rp_value e_rope4 = Some (Some l_text4) /\
              option_map rp_len e_rope1 = Some 7 /\ option_map rp_len e_rope2 = Some 5 /\ option_map rp_len e_rope3 = Some 6) by (vm_compute; repeat split).
  rewrite E1, E2, E3, E4 in V. cbn [option_map] in V. destruct V as (V1 & V2 & V3 & V4 & N1 & N2 & N3).
  injection V1 as V1. injection V2 as V2. injection V3 as V3. injection V4 as V4. injection N1 as N1. injection N2 as N2. injection N3 as N3.
  exists r4. split; [reflexivity|]. split; [exact V4|].
  eapply (e_more l_p true r3 l_table3 (Edit 6 6 [x3d])); [|exact V3|rewrite N3; cbn; lia|right; vm_compute; lia|rewrite <- E3; exact E4|eapply (eval_sound _ _ _ 30); vm_compute; reflexivity|do 2 eexists; vm_compute; reflexivity].
  eapply (e_more l_p true r2 l_table2 (Edit 0 0 [x78])); [|exact V2|rewrite N2; cbn; lia|right; vm_compute; lia|rewrite <- E2; exact E3|eapply (eval_sound _ _ _ 30); vm_compute; reflexivity|do 2 eexists; vm_compute; reflexivity].
  eapply (e_more l_p false r1 tt_new (Edit 5 7 [])); [|exact V1|rewrite N1; cbn; lia|left; reflexivity|rewrite <- E1; exact E2|eapply (eval_sound _ _ _ 30); vm_compute; reflexivity|do 2 eexists; vm_compute; reflexivity].
  eapply se_new; [|exact E1]. vm_compute. lia.
Qed.

(** with edits that make the text shorter by several bytes, in any order, it is false (as C22): *)
Inductive free_session (p : pattern) (code : code) : rope -> ttable -> Prop :=
| fs_new : forall o s r, splits o -> rp_new o s = Some r -> free_session p code r tt_new
| fs_parse : forall r s t f x w' o st, free_session p code r t -> rp_value r = Some s ->
    peg s no_check [] p 0 ([], tt) x w' -> vm_exec 4 (tree_table 0) no_check None f code s t tt = Some (ROk o st) ->
    free_session p code r (m_tbl st)
| fs_edit : forall r t e r1 r2, free_session p code r t -> ed_start e <= ed_end e <= rp_len r ->
    rp_remove r (ed_start e) (ed_end e) = Some r1 -> rp_insert r1 (ed_start e) (ed_text e) = Some r2 ->
    free_session p code r2 (tt_by t e).
Example free_rope : forall p code s t, free_history p code s t -> exists r, made splits r s /\ free_session p code r t.
Proof.
  intros p code s t H. induction H as [s|s t f r w' o st H (x & M & K) P X|s t e H (x & M & K) He].
  - assert (Sp : splits e_opts) by (vm_compute; lia). destruct (C30_new e_opts s Sp) as (r & E). exists r. split; [exact (made_new _ _ _ _ Sp E)|exact (fs_new _ _ _ _ _ Sp E)].
  - exists x. split; [exact M|]. eapply fs_parse; try eassumption. exact (proj1 (C30_value _ _ M)).
  - destruct (C30_remove x s _ _ M He) as (r1 & E1). pose proof (made_remove _ _ _ _ _ _ M He E1) as M1.
    assert (P : ed_start e <= List.length (firstn (ed_start e) s ++ skipn (ed_end e) s)) by (destruct He; rewrite app_length, firstn_length, skipn_length; lia).
    destruct (C30_insert _ _ (ed_start e) (ed_text e) M1 P) as (r2 & E2). exists r2. split.
    + rewrite <- (replace_text s e He). eapply made_insert; eassumption.
    + eapply fs_edit; try eassumption. rewrite (proj2 (C30_value _ _ M)). exact He.
Qed.
Theorem C60_shrink_refuted : exists p code r s t,
  supported p /\ compiled_memo 100 p code /\ memo_once p /\ memo_recorded p /\ memo_flat p /\ memo_unrepeated p /\
  free_session p code r t /\ rp_value r = Some s /\
  peg s no_check [] p 0 ([], tt) (RSucc 34 []) ([], tt) /\
  exists f o st, vm_exec 4 (tree_table 0) no_check None f code s t tt = Some (ROk o st) /\ o_ok o = true /\ o_pos o = 32.
Proof.
  destruct C22_shrink_refuted as (p & code & s & t & H1 & H2 & H3 & H4 & H5 & H6 & H7 & H8 & H9).
  destruct (free_rope _ _ _ _ H7) as (r & M & K). exists p, code, r, s, t. repeat (split; [assumption|]).
  split; [exact (proj1 (C30_value _ _ M))|]. split; assumption.
Qed.
Print Assumptions C60_shrink_refuted.
