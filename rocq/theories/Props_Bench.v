(** Property C62: edits may be told byte by byte. *)
From Coq Require Import ZArith.
From Verif Require Import Base Model_Charset Model_Isa Model_Capture Model_Code Model_VM Model_Pattern Model_Table Model_Rope Spec_Peg Spec_Run Spec_Memo Spec_Rope Spec_Editor Proof_Eval Props_Memo Props_Rounds Model_Bench Spec_Bench Proof_Bench.
Local Open Scope nat_scope.

(** the single edits can be made one after the other, and give the same text *)
Theorem C62_text : forall s es, edits_ok s es -> edits_ok s (to_single_edits es) /\ edits_text s (to_single_edits es) = edits_text s es.
Proof. intros s es. apply single_all. Qed.
Print Assumptions C62_text.
(** each removes one byte or inserts one *)
Theorem C62_single : forall es, Forall of_one_byte (to_single_edits es).
Proof. exact singles_shape. Qed.
Print Assumptions C62_single.
(** "abc" for the first two bytes of "xyz" *)
Example C62_text_ex : to_single_edits [Edit 0 2 [x61; x62; x63]] = [Edit 0 1 []; Edit 0 1 []; Edit 0 0 [x61]; Edit 1 1 [x62]; Edit 2 2 [x63]] /\
  edits_ok [x78; x79; x7a] [Edit 0 2 [x61; x62; x63]] /\ edits_text [x78; x79; x7a] [Edit 0 2 [x61; x62; x63]] = [x61; x62; x63; x7a].
Proof. split; [reflexivity|]. split; [vm_compute; lia|reflexivity]. Qed.

(** An editor that keeps its text in a rope (C60) may make any edits in this way, also such as make the text
    shorter, and be in a state to which C60 applies; *)
Theorem C62_rope : forall bufsz CS (check : nat -> CS -> list byte -> list byte -> nat -> Z -> Z -> CS * option nat) threshold p code b r t s es,
  session bufsz check threshold p code b r t -> rp_value r = Some s -> edits_ok s es ->
  exists b' r', session bufsz check threshold p code b' r' (edits_table t (to_single_edits es)) /\ rp_value r' = Some (edits_text s es).
Proof. intros. eapply single_session; eassumption. Qed.
Print Assumptions C62_rope.
(** and whatever edits and parses there were, a parse gives the result of the semantics on the text, as if it
    were parsed from scratch.
    Missing: the patterns that are missing in C22.  The restriction of C22 on the edits is not needed. *)
Theorem C62_stops_partial : forall bufsz CS check thr threshold p code s t (cs0 : CS) r errs cs',
  0 < bufsz -> check_ok check s -> supported p -> compiled_memo thr p code ->
  memo_once p -> memo_recorded p -> memo_flat p -> memo_unrepeated p ->
  typed bufsz check threshold p code s t ->
  peg s check [] p 0 ([], cs0) r (errs, cs') ->
  exists f o st, vm_exec bufsz (tree_table threshold) check None f code s t cs0 = Some (ROk o st) /\ agrees None r o /\ o_errs o = errs /\ m_cs st = cs'.
Proof.
  intros bufsz CS check thr threshold p code s t cs0 r errs cs' Hb Hk Hs Hc Ho Hr Hf Hu H.
  destruct (typed_history _ _ _ _ _ _ _ H) as [b K]. eapply C22_history_stops_partial; eassumption.
Qed.
Print Assumptions C62_stops_partial.
Theorem C62_result_partial : forall bufsz CS check thr threshold p code s t (cs0 : CS) r errs cs' f y,
  0 < bufsz -> check_ok check s -> supported p -> compiled_memo thr p code ->
  memo_once p -> memo_recorded p -> memo_flat p -> memo_unrepeated p ->
  typed bufsz check threshold p code s t ->
  peg s check [] p 0 ([], cs0) r (errs, cs') ->
  vm_exec bufsz (tree_table threshold) check None f code s t cs0 = Some y ->
  exists o st, y = ROk o st /\ agrees None r o /\ o_errs o = errs /\ m_cs st = cs'.
Proof.
  intros bufsz CS check thr threshold p code s t cs0 r errs cs' f y Hb Hk Hs Hc Ho Hr Hf Hu H.
  destruct (typed_history _ _ _ _ _ _ _ H) as [b K]. eapply C22_history_result_partial; eassumption.
Qed.
Print Assumptions C62_result_partial.
(** The parses and edits of C22_shrink_refuted, where the last parse is wrong: *)
Fixpoint replay (p : pattern) (code : code) (ops : list (option edit)) (s : list byte) (t : ttable) : option (list byte * ttable) :=
  match ops with
  | [] => Some (s, t)
  | None :: ops =>
      match vm_exec 4 (tree_table 0) no_check None 200 code s t tt, eval s no_check 40 [] p 0 ([], tt) with
      | Some (ROk o st), (Some _, _, _) => replay p code ops s (m_tbl st)
      | _, _ => None
      end
  | Some e :: ops => if (ed_start e <=? ed_end e) && (ed_end e <=? List.length s) then replay p code ops (edit_text s e) (edits_table t (edit_to_edits e)) else None
  end.
Example replay_typed : forall p code ops s t s' t', replay p code ops s t = Some (s', t') -> typed 4 no_check 0 p code s t -> typed 4 no_check 0 p code s' t'.
Proof.
  induction ops as [|[e|] ops IH]; intros s t s' t' H K; cbn [replay] in H.
  - injection H as <- <-. exact K.
  - destruct (Nat.leb_spec (ed_start e) (ed_end e)) as [A|A]; [|discriminate]. destruct (Nat.leb_spec (ed_end e) (List.length s)) as [B|B]; [|discriminate].
    cbn [andb] in H. eapply IH; [exact H|]. apply ty_edit; [exact K|]. split; assumption.
  - destruct (vm_exec 4 (tree_table 0) no_check None 200 code s t tt) as [[o st|]|] eqn:Ex; try discriminate.
    destruct (eval s no_check 40 [] p 0 ([], tt)) as [[[r|] w'] x] eqn:Ev; [|discriminate]. eapply IH; [exact H|].
    eapply ty_parse; [exact K| |eapply eval_sound; exact Ev|exact Ex]. cbv [check_ok no_check]. intros. discriminate.
Qed.
(** told byte by byte, it is right *)
Example C62_ex : exists s t, replay k_p (code_of k_p) k_ops k_text tt_new = Some (s, t) /\ typed 4 no_check 0 k_p (code_of k_p) s t /\
  match vm_exec 4 (tree_table 0) no_check None 200 (code_of k_p) s t tt with Some (ROk o st) => o_ok o = true /\ o_pos o = 34 | _ => False end.
Proof.
  destruct (replay k_p (code_of k_p) k_ops k_text tt_new) as [[s t]|] eqn:E.
  - exists s, t. split; [reflexivity|]. split; [eapply replay_typed; [exact E|apply ty_new]|].
    assert (K : match replay k_p (code_of k_p) k_ops k_text tt_new with Some (s, t) =>
      match vm_exec 4 (tree_table 0) no_check None 200 (code_of k_p) s t tt with Some (ROk o st) => o_ok o = true /\ o_pos o = 34 | _ => False end | None => False end) by (vm_compute; auto).
    rewrite E in K. exact K.
  - exfalso. assert (K : replay k_p (code_of k_p) k_ops k_text tt_new <> None) by (vm_compute; discriminate). congruence.
Qed.
