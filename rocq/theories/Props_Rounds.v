(** Property C22 for any number of rounds of edits and parses. *)
From Coq Require Import ZArith.
From Verif Require Import Base Model_Charset Model_Isa Model_Capture Model_Code Model_VM Model_Pattern Spec_Peg Spec_Scope Spec_Run Model_Table Spec_Memo Proof_Eval Proof_Memo Proof_Memo4 Proof_Memo5 Props_Memo.
Local Open Scope nat_scope.

(** C22: when no memoized pattern contains another one and none is repeated directly, parses and edits
    may follow each other any number of times: each parse gives the result of the semantics on the
    current text, as if it were parsed from scratch.
    Missing: edits after the first that make the text shorter (false, [C22_shrink_refuted]); memoized patterns inside of others (false,
    [C22_rounds_refuted]) or repeated directly (false, [C22_repeat_refuted]); memoized patterns with Any,
    Search, checkers or errors inside (false for Any, [C22_any_refuted]); memo ids used twice; and the
    sharing of slices, as in C21. *)
Theorem C22_history_stops_partial : forall bufsz CS check thr threshold p code b s t (cs0 : CS) r errs cs',
  0 < bufsz -> check_ok check s -> supported p -> compiled_memo thr p code ->
  memo_once p -> memo_recorded p -> memo_flat p -> memo_unrepeated p ->
  history bufsz check threshold p code b s t ->
  peg s check [] p 0 ([], cs0) r (errs, cs') ->
  exists f o st, vm_exec bufsz (tree_table threshold) check None f code s t cs0 = Some (ROk o st) /\ agrees None r o /\ o_errs o = errs /\ m_cs st = cs'.
Proof.
  intros bufsz CS check thr threshold p code b s t cs0 r errs cs' Hb Hk Hs Hc Ho Hr Hf Hu Hh.
  apply (good_some bufsz Hb CS check thr threshold p code _ Hk); [apply once_agree'|apply rec_pure'|]; try assumption. eapply good_history; eassumption.
Qed.
Print Assumptions C22_history_stops_partial.
Theorem C22_history_result_partial : forall bufsz CS check thr threshold p code b s t (cs0 : CS) r errs cs' f y,
  0 < bufsz -> check_ok check s -> supported p -> compiled_memo thr p code ->
  memo_once p -> memo_recorded p -> memo_flat p -> memo_unrepeated p ->
  history bufsz check threshold p code b s t ->
  peg s check [] p 0 ([], cs0) r (errs, cs') ->
  vm_exec bufsz (tree_table threshold) check None f code s t cs0 = Some y ->
  exists o st, y = ROk o st /\ agrees None r o /\ o_errs o = errs /\ m_cs st = cs'.
Proof.
  intros bufsz CS check thr threshold p code b s t cs0 r errs cs' f y Hb Hk Hs Hc Ho Hr Hf Hu Hh.
  apply (good_is bufsz Hb CS check thr threshold p code _ Hk); [apply once_agree'|apply rec_pure'|]; try assumption. eapply good_history; eassumption.
Qed.
Print Assumptions C22_history_result_partial.
Theorem C22_history_forever_partial : forall bufsz CS check thr threshold p code b s t (cs0 : CS),
  0 < bufsz -> check_ok check s -> supported p -> compiled_memo thr p code ->
  memo_once p -> memo_recorded p -> memo_flat p -> memo_unrepeated p ->
  history bufsz check threshold p code b s t ->
  (forall r w', ~ peg s check [] p 0 ([], cs0) r w') ->
  forall f, vm_exec bufsz (tree_table threshold) check None f code s t cs0 = None.
Proof.
  intros bufsz CS check thr threshold p code b s t cs0 Hb Hk Hs Hc Ho Hr Hf Hu Hh.
  apply (good_forever bufsz Hb CS check thr threshold p code _ Hk); [apply once_agree'|apply rec_pure'|]; try assumption. eapply good_history; eassumption.
Qed.
Print Assumptions C22_history_forever_partial.

(** words with semicolons between them, a word not being followed by an equals sign *)
Definition l_word : pattern := PSeq (PCap (PPlus (PClass (cs_range x61 x7a))) 1) (PNot (PLit [x3d])).
Definition l_tail : pattern := PSeq (PLit [x3b]) (PNonTerm "W" None).
Definition l_list : pattern := PSeq (PNonTerm "W" None) (PStar l_tail).
Definition l_defs : list (string * pattern) := [("S"%string, l_list); ("W"%string, PMemo l_word 1)].
Definition l_p : pattern := PGrammar l_defs "S".
Definition l_set : list (env * pattern) :=
  ([], l_p) :: map (fun q => ([l_defs], q))
  [l_list; PNonTerm "W" None; PStar l_tail; l_tail; PLit [x3b]; PMemo l_word 1; l_word; PCap (PPlus (PClass (cs_range x61 x7a))) 1;
   PPlus (PClass (cs_range x61 x7a)); PClass (cs_range x61 x7a); PNot (PLit [x3d]); PLit [x3d]].
Definition l_inner : list (env * pattern) := map (fun q => ([l_defs], q))
  [l_word; PCap (PPlus (PClass (cs_range x61 x7a))) 1; PPlus (PClass (cs_range x61 x7a)); PClass (cs_range x61 x7a); PNot (PLit [x3d]); PLit [x3d]].
Example l_set_closed : forall E q E' q', In (E, q) l_set -> child E q E' q' -> In (E', q') l_set.
Proof.
  intros E q E' q' H C. unfold l_set in H. cbn [map In] in H.
  repeat (destruct H as [H|H]; [injection H as <- <-; inversion C; subst;
    repeat match goal with H : In _ l_defs |- _ => unfold l_defs in H; cbn [In] in H; destruct H as [H|[H|[]]]; injection H as <- <-
                         | H : lookup _ _ = Some _ |- _ => vm_compute in H; injection H as <- <- end;
    unfold l_set; cbn [map In]; tauto|]). destruct H.
Qed.
Example l_inner_closed : forall E q E' q', In (E, q) l_inner -> child E q E' q' -> In (E', q') l_inner.
Proof.
  intros E q E' q' H C. unfold l_inner in H. cbn [map In] in H.
  repeat (destruct H as [H|H]; [injection H as <- <-; inversion C; subst; unfold l_inner; cbn [map In]; tauto|]). destruct H.
Qed.
Example l_memoized : forall id E q, memoized l_p id E q -> E = [l_defs] /\ id = 1%Z /\ q = l_word.
Proof.
  intros id E q H. apply (part_in (fun E q => In (E, q) l_set) l_set_closed) in H; [|left; reflexivity].
  unfold l_set in H. cbn [map In] in H. repeat (destruct H as [H|H]; [discriminate H || (injection H as <- <- <-; auto)|]). destruct H.
Qed.
Example l_ok : supported l_p /\ compiled_memo 100 l_p (code_of l_p) /\ memo_once l_p /\ memo_recorded l_p /\ memo_flat l_p /\ memo_unrepeated l_p.
Proof.
  split; [split; [|split]|].
  - vm_compute. tauto.
  - vm_compute. repeat split; repeat constructor; intro H; repeat (destruct H as [H|H]; [discriminate H|]); destruct H.
  - vm_compute. tauto.
  - split; [|split; [|split; [|split]]].
    + exists 50, (CState 0 2). do 2 eexists. split; [|split; [vm_compute; reflexivity|vm_compute; reflexivity]].
      intros id E q H. apply l_memoized in H. cbn [cs_memo]. destruct H as (_ & -> & _). lia.
    + intros id E q E' q' H H'. apply l_memoized in H. apply l_memoized in H'. destruct H as (-> & -> & ->), H' as (-> & _ & ->). auto.
    + intros id E q H. apply l_memoized in H. destruct H as (-> & -> & ->). split; [reflexivity|]. intros E' x b E'' P L.
      apply (part_in (fun E q => In (E, q) l_inner) l_inner_closed) in P; [|left; reflexivity].
      unfold l_inner in P. cbn [map In] in P. repeat (destruct P as [P|P]; [discriminate P|]). destruct P.
    + intros id E q E' q' id' H P. apply l_memoized in H. destruct H as (-> & -> & ->).
      apply (part_in (fun E q => In (E, q) l_inner) l_inner_closed) in P; [|left; reflexivity].
      unfold l_inner in P. cbn [map In] in P. repeat (destruct P as [P|P]; [discriminate P|]). destruct P.
    + intros E q [P|P] M; (apply (part_in (fun E q => In (E, q) l_set) l_set_closed) in P; [|left; reflexivity]);
        unfold l_set in P; cbn [map In] in P; repeat (destruct P as [P|P]; [discriminate P || (injection P as <- <-; inversion M; subst)|]);
        repeat match goal with H : blank _ (PLit _) |- _ => inversion H | H : memo_head _ (PLit _) |- _ => inversion H end; try destruct P.
Qed.
(** "ab;cd;e" becomes "ab;cd" by an edit, is parsed, becomes "xab;cd", is parsed, and becomes "xab;cd=":
    now "cd" is not a word, and the entry for it is gone while the one for "xab" is used *)
Definition l_text1 : list byte := [x61; x62; x3b; x63; x64; x3b; x65].
Definition l_text2 : list byte := [x61; x62; x3b; x63; x64].
Definition l_text3 : list byte := [x78; x61; x62; x3b; x63; x64].
Definition l_text4 : list byte := [x78; x61; x62; x3b; x63; x64; x3d].
Definition tt_by (t : ttable) (e : edit) : ttable := tt_edit t (ed_start e) (ed_end e) (List.length (ed_text e)).
Definition l_table2 : ttable := tt_by (table_of l_p tt_new l_text1) (Edit 5 7 []).
Definition l_table3 : ttable := tt_by (table_of l_p l_table2 l_text2) (Edit 0 0 [x78]).
Definition l_table4 : ttable := tt_by (table_of l_p l_table3 l_text3) (Edit 6 6 [x3d]).
Example one_more : forall p b s t e s' t' r w', history 4 no_check 0 p (code_of p) b s t ->
  edit_ok s e -> b = false \/ gentle e -> edit_text s e = s' -> tt_by (table_of p t s) e = t' ->
  peg s no_check [] p 0 ([], tt) r w' -> (exists o st, vm_exec 4 (tree_table 0) no_check None 100 (code_of p) s t tt = Some (ROk o st)) ->
  history 4 no_check 0 p (code_of p) true s' t'.
Proof.
  intros p b s t e s' t' r w' H He Hg <- <- Hp (o & st & Hx). unfold tt_by. eapply h_edit; [|exact He|exact Hg].
  unfold table_of. rewrite Hx. eapply h_parse; try eassumption. cbv [check_ok no_check]. intros. discriminate.
Qed.
Example l_history : history 4 no_check 0 l_p (code_of l_p) true l_text4 l_table4 /\
  peg l_text4 no_check [] l_p 0 ([], tt) (RSucc 3 [CNode 1 0 3 []]) ([], tt) /\
  map (fun e => (e_at e, e_len e)) (tt_values l_table4) = [(0, Some 3)] /\
  exists o st, vm_exec 4 (tree_table 0) no_check None 100 (code_of l_p) l_text4 l_table4 tt = Some (ROk o st) /\
    o_ok o = true /\ o_pos o = 3 /\ option_map flat1 (o_capt o) = Some [CNode 1 0 3 []].
Proof.
  split; [|split; [|split]].
  - eapply (one_more l_p true l_text3 l_table3 (Edit 6 6 [x3d])); [|vm_compute; lia|right; vm_compute; lia|reflexivity|unfold l_table4; reflexivity|eapply (eval_sound _ _ _ 30); vm_compute; reflexivity|do 2 eexists; vm_compute; reflexivity].
    eapply (one_more l_p true l_text2 l_table2 (Edit 0 0 [x78])); [|vm_compute; lia|right; vm_compute; lia|reflexivity|unfold l_table3; reflexivity|eapply (eval_sound _ _ _ 30); vm_compute; reflexivity|do 2 eexists; vm_compute; reflexivity].
    eapply (one_more l_p false l_text1 tt_new (Edit 5 7 [])); [apply h_new|vm_compute; lia|left; reflexivity|reflexivity|unfold l_table2; reflexivity|eapply (eval_sound _ _ _ 30); vm_compute; reflexivity|do 2 eexists; vm_compute; reflexivity].
  - eapply (eval_sound _ _ _ 30). vm_compute. reflexivity.
  - vm_compute. reflexivity.
  - do 2 eexists. split; [vm_compute; reflexivity|]. repeat split.
Qed.

(** A memoized pattern repeated directly: the compiler memoizes the repetition as a tree, and an entry
    for several items made from entries in the table does not tell how far those have looked. *)
Definition q_in : pattern := PSeq (PLit [x61]) (PNot (PLit [x62; x63; x64])).
Definition q_p : pattern := PStar (PMemo q_in 1).
Definition q_set : list (env * pattern) := map (fun q => ([], q)) [q_p; PMemo q_in 1; q_in; PLit [x61]; PNot (PLit [x62; x63; x64]); PLit [x62; x63; x64]].
Example q_set_closed : forall E q E' q', In (E, q) q_set -> child E q E' q' -> In (E', q') q_set.
Proof.
  intros E q E' q' H C. unfold q_set in H. cbn [map In] in H.
  repeat (destruct H as [H|H]; [injection H as <- <-; inversion C; subst; unfold q_set; cbn [map In]; tauto|]). destruct H.
Qed.
Definition q_inner : list (env * pattern) := map (fun q => ([], q)) [q_in; PLit [x61]; PNot (PLit [x62; x63; x64]); PLit [x62; x63; x64]].
Example q_inner_closed : forall E q E' q', In (E, q) q_inner -> child E q E' q' -> In (E', q') q_inner.
Proof.
  intros E q E' q' H C. unfold q_inner in H. cbn [map In] in H.
  repeat (destruct H as [H|H]; [injection H as <- <-; inversion C; subst; unfold q_inner; cbn [map In]; tauto|]). destruct H.
Qed.
Example q_memoized : forall id E q, memoized q_p id E q -> E = [] /\ id = 1%Z /\ q = q_in.
Proof.
  intros id E q H. apply (part_in (fun E q => In (E, q) q_set) q_set_closed) in H; [|left; reflexivity].
  unfold q_set in H. cbn [map In] in H. repeat (destruct H as [H|H]; [discriminate H || (injection H as <- <- <-; auto)|]). destruct H.
Qed.
Theorem C22_repeat_refuted : exists p code s t,
  supported p /\ compiled_memo 100 p code /\ memo_once p /\ memo_recorded p /\ memo_flat p /\
  history 4 no_check 0 p code true s t /\
  peg s no_check [] p 0 ([], tt) (RSucc 3 []) ([], tt) /\
  exists f o st, vm_exec 4 (tree_table 0) no_check None f code s t tt = Some (ROk o st) /\ o_ok o = true /\ o_pos o = 4.
Proof.
  exists q_p, (code_of q_p), [x61; x61; x61; x61; x62; x63; x64],
    (tt_by (table_of q_p (tt_by (table_of q_p tt_new [x61; x61; x61; x61; x62; x63; x65]) (Edit 0 1 [x61])) [x61; x61; x61; x61; x62; x63; x65]) (Edit 6 7 [x64])).
  split; [vm_compute; tauto|]. split; [|split; [|split; [|split; [|split; [|split]]]]].
  - exists 50, (CState 0 2). do 2 eexists. split; [|split; [vm_compute; reflexivity|vm_compute; reflexivity]].
    intros id E q H. apply q_memoized in H. cbn [cs_memo]. destruct H as (_ & -> & _). lia.
  - intros id E q E' q' H H'. apply q_memoized in H. apply q_memoized in H'. destruct H as (-> & -> & ->), H' as (-> & _ & ->). auto.
  - intros id E q H. apply q_memoized in H. destruct H as (-> & -> & ->). split; [reflexivity|]. intros E' x b E'' P L.
    apply (part_in (fun E q => In (E, q) q_inner) q_inner_closed) in P; [|left; reflexivity].
    unfold q_inner in P. cbn [map In] in P. repeat (destruct P as [P|P]; [discriminate P|]). destruct P.
  - intros id E q E' q' id' H P. apply q_memoized in H. destruct H as (-> & -> & ->).
    apply (part_in (fun E q => In (E, q) q_inner) q_inner_closed) in P; [|left; reflexivity].
    unfold q_inner in P. cbn [map In] in P. repeat (destruct P as [P|P]; [discriminate P|]). destruct P.
  - eapply (one_more q_p true [x61; x61; x61; x61; x62; x63; x65] (tt_by (table_of q_p tt_new [x61; x61; x61; x61; x62; x63; x65]) (Edit 0 1 [x61])) (Edit 6 7 [x64])); [|vm_compute; lia|right; vm_compute; lia|reflexivity|reflexivity|eapply (eval_sound _ _ _ 30); vm_compute; reflexivity|do 2 eexists; vm_compute; reflexivity].
    eapply (one_more q_p false [x61; x61; x61; x61; x62; x63; x65] tt_new (Edit 0 1 [x61])); [apply h_new|vm_compute; lia|left; reflexivity|reflexivity|reflexivity|eapply (eval_sound _ _ _ 30); vm_compute; reflexivity|do 2 eexists; vm_compute; reflexivity].
  - eapply (eval_sound _ _ _ 30). vm_compute. reflexivity.
  - exists 100. do 2 eexists. split; [vm_compute; reflexivity|]. split; reflexivity.
Qed.
Print Assumptions C22_repeat_refuted.

(** A text and a table as in [history], but every edit may make the text shorter: *)
Inductive free_history (p : pattern) (code : code) : list byte -> ttable -> Prop :=
| fh_new : forall s, free_history p code s tt_new
| fh_parse : forall s t f r w' o st, free_history p code s t ->
    peg s no_check [] p 0 ([], tt) r w' -> vm_exec 4 (tree_table 0) no_check None f code s t tt = Some (ROk o st) ->
    free_history p code s (m_tbl st)
| fh_edit : forall s t e, free_history p code s t -> edit_ok s e -> free_history p code (edit_text s e) (tt_by t e).
(** the same by computation; [None] is a parse *)
Fixpoint play (p : pattern) (code : code) (ops : list (option edit)) (s : list byte) (t : ttable) : option (list byte * ttable) :=
  match ops with
  | [] => Some (s, t)
  | None :: ops =>
      match vm_exec 4 (tree_table 0) no_check None 200 code s t tt, eval s no_check 40 [] p 0 ([], tt) with
      | Some (ROk o st), (Some _, _, _) => play p code ops s (m_tbl st)
      | _, _ => None
      end
  | Some e :: ops => if (ed_start e <=? ed_end e) && (ed_end e <=? List.length s) then play p code ops (edit_text s e) (tt_by t e) else None
  end.
Example play_history : forall p code ops s t s' t', play p code ops s t = Some (s', t') -> free_history p code s t -> free_history p code s' t'.
Proof.
  induction ops as [|[e|] ops IH]; intros s t s' t' H K; cbn [play] in H.
  - injection H as <- <-. exact K.
  - destruct (Nat.leb_spec (ed_start e) (ed_end e)) as [A|A]; [|discriminate]. destruct (Nat.leb_spec (ed_end e) (List.length s)) as [B|B]; [|discriminate].
    cbn [andb] in H. eapply IH; [exact H|]. apply fh_edit; [exact K|]. split; assumption.
  - destruct (vm_exec 4 (tree_table 0) no_check None 200 code s t tt) as [[o st|]|] eqn:Ex; try discriminate.
    destruct (eval s no_check 40 [] p 0 ([], tt)) as [[[r|] w'] x] eqn:Ev; [|discriminate]. eapply IH; [exact H|].
    eapply fh_parse; [exact K|eapply eval_sound; exact Ev|exact Ex].
Qed.
(** the parts of a pattern without names, checkers, errors and searches *)
Fixpoint parts (p : pattern) : list pattern :=
  p :: match p with
       | PAlt l r | PSeq l r => parts l ++ parts r
       | PStar q | PPlus q | POpt q | PNot q | PAnd q | PCap q _ | PMemo q _ => parts q
       | _ => []
       end.
Definition nameless (p : pattern) : bool := forallb (fun q => match q with PCheck _ _ _ _ | PGrammar _ _ | PSearch _ | PNonTerm _ _ | PError _ _ => false | _ => true end) (parts p).
Example parts_all : forall E p E' q, part E p E' q -> nameless p = true -> E' = E /\ In q (parts p).
Proof.
  intros E p E' q H. induction H as [E p|E p E' q E'' r C P IH]; intro N; [split; [reflexivity|destruct p; left; reflexivity]|].
  unfold nameless in N, IH. destruct C; cbn [parts forallb] in N |- *; try rewrite forallb_app in N;
    repeat (match goal with H : (_ && _)%bool = true |- _ => apply andb_true_iff in H; destruct H end); try discriminate;
    (destruct IH as [-> I]; [assumption|]); (split; [reflexivity|right; try apply in_or_app; tauto]).
Qed.
(** Probes at places that the first byte of the text selects build a tree; then the text gets longer and
    then shorter.  The interval tree now misses an entry for "ax" when x becomes b (C24): the entry
    says that "ab" does not match there. *)
Definition k_text : list byte := [x30; x78; x78; x78; x78; x61] ++ repeat x78 14.
Definition k_probe (c : byte) (n : nat) : pattern := PSeq (PLit (c :: firstn (n - 1) (tl k_text))) (POpt (PMemo (PLit [x61; x62]) 1)).
Definition k_last : pattern := PSeq (PSeq (PLit [x37]) (PStar (PLit [x78]))) (POpt (PMemo (PLit [x61; x62]) 1)).
Definition k_p : pattern := p_or [k_probe x30 12; k_probe x31 4; k_probe x32 7; k_probe x33 2; k_probe x34 6; k_probe x35 13; k_probe x36 14; k_last].
Definition sel (c : byte) : option edit := Some (Edit 0 1 [c]).
Definition k_ops : list (option edit) :=
  [None; sel x31; None; sel x32; None; sel x33; None; sel x34; None; sel x35; None; sel x36; None; sel x37; None;
   Some (Edit 2 3 (repeat x78 28)); Some (Edit 35 38 []); Some (Edit 33 34 [x62])].
Theorem C22_shrink_refuted : exists p code s t,
  supported p /\ compiled_memo 100 p code /\ memo_once p /\ memo_recorded p /\ memo_flat p /\ memo_unrepeated p /\
  free_history p code s t /\
  peg s no_check [] p 0 ([], tt) (RSucc 34 []) ([], tt) /\
  exists f o st, vm_exec 4 (tree_table 0) no_check None f code s t tt = Some (ROk o st) /\ o_ok o = true /\ o_pos o = 32.
Proof.
  assert (M : forall id E q, memoized k_p id E q -> E = [] /\ id = 1%Z /\ q = PLit [x61; x62]).
  { intros id E q H. apply parts_all in H; [|vm_compute; reflexivity]. destruct H as [-> H]. split; [reflexivity|]. vm_compute in H.
    repeat (destruct H as [H|H]; [discriminate H || (injection H as <- <-; auto)|]). destruct H. }
  assert (P : play k_p (code_of k_p) k_ops k_text tt_new <> None) by (vm_compute; discriminate).
  destruct (play k_p (code_of k_p) k_ops k_text tt_new) as [[s t]|] eqn:Ep; [clear P|destruct (P eq_refl)].
  exists k_p, (code_of k_p), s, t.
  split; [vm_compute; tauto|]. split; [|split; [|split; [|split; [|split; [|split]]]]].
  - exists 50, (CState 0 2). do 2 eexists. split; [|split; [vm_compute; reflexivity|vm_compute; reflexivity]].
    intros id E q H. apply M in H. cbn [cs_memo]. destruct H as (_ & -> & _). lia.
  - intros id E q E' q' H H'. apply M in H. apply M in H'. destruct H as (-> & -> & ->), H' as (-> & _ & ->). auto.
  - intros id E q H. apply M in H. destruct H as (-> & -> & ->). split; [reflexivity|]. intros E' x b E'' P L.
    apply parts_all in P; [|reflexivity]. destruct P as [_ [P|[]]]. discriminate P.
  - intros id E q E' q' id' H P. apply M in H. destruct H as (-> & -> & ->). apply parts_all in P; [|reflexivity]. destruct P as [_ [P|[]]]. discriminate P.
  - intros E q [P|P] H; (apply parts_all in P; [|vm_compute; reflexivity]); destruct P as [-> P]; vm_compute in P;
      repeat (destruct P as [P|P]; [discriminate P || (injection P as <-; inversion H)|]); destruct P.
  - eapply play_history; [exact Ep|apply fh_new].
  - assert (K : match play k_p (code_of k_p) k_ops k_text tt_new with Some (s, t) => fst (eval s no_check 40 [] k_p 0 ([], tt)) = (Some (RSucc 34 []), ([], tt)) /\
      match vm_exec 4 (tree_table 0) no_check None 200 (code_of k_p) s t tt with Some (ROk o st) => o_ok o = true /\ o_pos o = 32 | _ => False end | None => False end) by (vm_compute; auto).
    rewrite Ep in K. destruct K as [K1 K2]. split.
    + destruct (eval s no_check 40 [] k_p 0 ([], tt)) as [[r w'] x] eqn:Ev. cbn [fst] in K1. injection K1 as -> ->. eapply eval_sound. exact Ev.
    + exists 200. destruct (vm_exec 4 (tree_table 0) no_check None 200 (code_of k_p) s t tt) as [[o st|]|]; try destruct K2. exists o, st. auto.
Qed.
Print Assumptions C22_shrink_refuted.
