From Verif Require Import Base Model_Charset Model_Isa Model_Capture Model_Code Model_VM Model_Pattern Model_Table Model_Rope Spec_Peg Spec_Run Spec_Memo Spec_Rope Spec_Editor Props_Rope.
Local Open Scope nat_scope.

Lemma replace_text : forall s e, edit_ok s e ->
  firstn (ed_start e) (firstn (ed_start e) s ++ skipn (ed_end e) s) ++ ed_text e ++ skipn (ed_start e) (firstn (ed_start e) s ++ skipn (ed_end e) s) = edit_text s e.
Proof.
  intros s e [H1 H2]. unfold edit_text.
  assert (L : List.length (firstn (ed_start e) s) = ed_start e) by (rewrite firstn_length; lia).
  rewrite firstn_app, skipn_app, L, Nat.sub_diag. cbn [skipn firstn]. rewrite app_nil_r, firstn_firstn, Nat.min_id.
  rewrite (skipn_all2 (firstn (ed_start e) s)) by lia. reflexivity.
Qed.

Lemma session_history : forall CS bufsz (check : nat -> CS -> list byte -> list byte -> nat -> Z -> Z -> CS * option nat) threshold p code b r t,
  session bufsz check threshold p code b r t -> exists s, made splits r s /\ history bufsz check threshold p code b s t.
Proof.
  intros CS bufsz check threshold p code b r t H.
  induction H as [o s r Ho Hn|b r s t f cs x w' o st H (s' & M & K) V C P X|b r t e r1 r2 H (s & M & K) He Hg H1 H2|b r t h H (s & M & K)].
  - exists s. split; [eapply made_new; eassumption|apply h_new].
  - exists s. rewrite (proj1 (C30_value _ _ M)) in V. injection V as ->. split; [exact M|]. eapply h_parse; eassumption.
  - exists (edit_text s e). rewrite (proj2 (C30_value _ _ M)) in He. split; [|eapply h_edit; eassumption].
    rewrite <- (replace_text s e He). eapply made_insert; [eapply made_remove; eassumption| |exact H2].
    rewrite app_length, firstn_length, skipn_length. lia.
  - exists s. split; [exact M|]. apply h_ask. exact K.
Qed.
