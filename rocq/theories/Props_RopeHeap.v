(** Property C49: ropes and byte slices do not disturb each other. *)
From Coq Require Import ZArith Lia.
From Verif Require Import Base Model_Rope Model_RopeHeap Spec_Rope Spec_RopeHeap Proof_RopeHeap4.
Local Open Scope nat_scope.

(** ** C49 *)
(** A program makes ropes from its slices (several from the same slice, if it wants), inserts its slices
    into ropes, fills slices again that it did not give to New, removes, splits and joins.  Nothing
    panics, every rope shows what the same operations do on byte strings, and every slice of the program
    holds the bytes that the program wrote there. *)
Theorem C49_programs : forall ops s, seen splits ops s -> exists w, w_run ops = Some w /\
  (forall k t, rget (s_ropes s) k = Some t -> w_value w k = Some t) /\
  (forall i b l, nth_error (s_bufs s) i = Some (b, l) -> w_buf w i = Some b).
Proof. exact (run_right splits (fun _ h => h)). Qed.
Print Assumptions C49_programs.

(** what SliceLC returns is right at that time *)
Theorem C49_slice : forall c ops s k t p q, seen (line_ends c) ops s -> rget (s_ropes s) k = Some t -> p <= q <= List.length t ->
  exists w w', w_run ops = Some w /\ w_step w (WTake k (loc_of c (firstn p t)) (loc_of c (firstn q t))) = Some w' /\
    w_buf w' (List.length (w_bufs w)) = Some (firstn (q - p) (skipn p t)).
Proof. exact take_right. Qed.
Print Assumptions C49_slice.

(** a part of one rope that SliceLC returned is inserted into another rope *)
Theorem C49_copy : forall c ops s j k t u p q pos, seen (line_ends c) ops s -> rget (s_ropes s) j = Some t -> rget (s_ropes s) k = Some u -> j <> k ->
  p <= q <= List.length t -> pos <= List.length u ->
  exists w w', w_run ops = Some w /\ w_run (ops ++ [WTake j (loc_of c (firstn p t)) (loc_of c (firstn q t)); WInsert k pos (List.length (w_bufs w))]) = Some w' /\
    (forall i x, rget (rset (s_ropes s) k (Some (firstn pos u ++ firstn (q - p) (skipn p t) ++ skipn pos u))) i = Some x -> w_value w' i = Some x) /\
    (forall i b l, nth_error (s_bufs s) i = Some (b, l) -> w_buf w' i = Some b).
Proof. exact copy_right. Qed.
Print Assumptions C49_copy.

(** chunks of four bytes *)
Definition tiny : opts := Opts 4 3 6 5 [x0a].
Definition abc : list byte := [x61; x62; x63; x64; x65; x66; x67].
Definition xy : list byte := [x78; x79].
(** two ropes from one slice; both are edited, and a buffer is used twice *)
Definition busy : list rop :=
  [WBuf abc; WBuf xy; WNew tiny 0; WNew tiny 0; WRemove 0 1 3; WInsert 1 2 1; WFill 1 [x7a; x7a]; WInsert 0 1 1; WInsert 0 5 0; WSplit 1 4; WJoin 0 3].
Ltac one_op := cbn; solve [econstructor; cbn; solve [reflexivity|lia|discriminate|repeat constructor]].
Ltac all_ops := match goal with
  | |- seen _ [] _ => apply seen_nil
  | |- seen ?P ?l _ => let a := eval cbn in (removelast l) in let b := eval cbn in (last l (WBuf [])) in eapply (seen_op P a b); [all_ops|one_op] end.
Example C49_case : exists s, seen splits busy s /\
  s_ropes s = [None; None; Some [x61; x62; x78; x79]; None; Some [x61; x7a; x7a; x64; x65; x61; x62; x63; x64; x65; x66; x67; x66; x67; x63; x64; x65; x66; x67]] /\
  s_bufs s = [(abc, true); ([x7a; x7a], false)].
Proof. eexists. split; [unfold busy; all_ops|]. vm_compute. auto. Qed.
(** two ropes with lines, one with spare room in its leaf *)
Example C49_case_lines : exists s, seen (line_ends x0a) [WBuf abc; WNew tiny 0; WRemove 0 1 6; WBuf [x78; x0a]; WNew tiny 1] s /\ s_ropes s = [Some [x61; x67]; Some [x78; x0a]].
Proof. eexists. split; [all_ops|]. vm_compute. auto. Qed.

(** Insert of a part of the rope itself, as SliceLC returns it: "cd" before "abcd" gives "ababcd" *)
Definition six : opts := Opts 8 3 6 5 [x0a].
Definition cut4 : list rop := [WBuf (firstn 6 abc); WNew six 0; WRemove 0 4 6].
Theorem C49_paste_refuted : exists ops s t c p q w, seen (line_ends c) ops s /\ rget (s_ropes s) 0 = Some t /\ p <= q <= List.length t /\
  w_run (ops ++ [WTake 0 (loc_of c (firstn p t)) (loc_of c (firstn q t)); WInsert 0 0 (List.length (s_bufs s))]) = Some w /\
  w_value w 0 <> Some (firstn (q - p) (skipn p t) ++ t).
Proof.
  exists cut4. eexists _, (firstn 4 abc), x0a, 2, 4, _.
  split; [unfold cut4; all_ops|]. split; [reflexivity|]. split; [cbn; lia|]. split; [vm_compute; reflexivity|]. vm_compute. discriminate.
Qed.
Print Assumptions C49_paste_refuted.

(** a slice that SliceLC returned changes when the rope is edited *)
Theorem C49_kept_refuted : exists ops s t c p q w, seen (line_ends c) ops s /\ rget (s_ropes s) 0 = Some t /\ p <= q <= List.length t /\
  w_run (ops ++ [WTake 0 (loc_of c (firstn p t)) (loc_of c (firstn q t)); WRemove 0 0 1]) = Some w /\
  w_value w 0 = Some (skipn 1 t) /\ w_buf w (List.length (s_bufs s)) <> Some (firstn (q - p) (skipn p t)).
Proof.
  exists cut4. eexists _, (firstn 4 abc), x0a, 2, 4, _.
  split; [unfold cut4; all_ops|]. split; [reflexivity|]. split; [cbn; lia|]. split; [vm_compute; reflexivity|]. split; vm_compute; [reflexivity|discriminate].
Qed.
Print Assumptions C49_kept_refuted.

(** an edit of a rope changes the ropes that SplitAt made from it earlier *)
Theorem C49_split_refuted : exists ops s t w r h1 a b h2 r2 x, seen splits ops s /\ rget (s_ropes s) 0 = Some t /\ w_run ops = Some w /\ rget (w_ropes w) 0 = Some r /\
  h_split_at (w_heap w) r 2 = Some (h1, (a, b)) /\ h_remove h1 r 0 1 = Some (h2, r2) /\ h_value h2 a = Some x /\
  bread (fst x) (snd x) <> firstn 2 t.
Proof.
  exists cut4. eexists _, (firstn 4 abc), _, _, _, _, _, _, _, _.
  split; [unfold cut4; all_ops|]. split; [reflexivity|]. split; [vm_compute; reflexivity|]. split; [vm_compute; reflexivity|]. split; [vm_compute; reflexivity|].
  split; [vm_compute; reflexivity|]. split; [vm_compute; reflexivity|]. vm_compute. discriminate.
Qed.
Print Assumptions C49_split_refuted.
