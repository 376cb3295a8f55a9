(** An edit in single bytes gives the same text. *)
From Verif Require Import Base Model_Charset Model_Isa Model_Capture Model_Code Model_VM Model_Pattern Model_Table Model_Rope Spec_Peg Spec_Run Spec_Memo Spec_Rope Spec_Editor Proof_Editor Props_Rope Props_Source Model_Bench Spec_Bench.
Local Open Scope nat_scope.

Lemma removes : forall k a s, a + k <= List.length s -> forall j,
  let es := map (fun _ => Edit a (S a) []) (seq j k) in edits_ok s es /\ edits_text s es = firstn a s ++ skipn (a + k) s.
Proof.
  induction k as [|k IH]; intros a s H j es.
  - split; [exact Logic.I|]. cbn. rewrite Nat.add_0_r, firstn_skipn. reflexivity.
  - unfold es. cbn [seq map]. set (s1 := edit_text s (Edit a (S a) [])).
    assert (E : s1 = firstn a s ++ skipn (S a) s) by reflexivity.
    assert (L : List.length s1 = List.length s - 1) by (rewrite E, app_length, firstn_length, skipn_length; lia).
    destruct (IH a s1 ltac:(lia) (S j)) as [A B]. split; [cbn [edits_ok]; split; [unfold edit_ok; cbn; lia|exact A]|].
    cbn [edits_text fold_left] in *. fold s1. unfold edits_text in B. rewrite B, E.
    rewrite firstn_app, firstn_firstn, firstn_length. replace (a - Nat.min a (List.length s)) with 0 by lia. cbn [firstn]. rewrite app_nil_r, Nat.min_id.
    f_equal. rewrite skipn_app, firstn_length, skipn_all2 by (rewrite firstn_length; lia). cbn [app]. rewrite skipn_skipn'. f_equal. lia.
Qed.
Lemma firstn_snoc : forall (l : list byte) i, i < List.length l -> firstn i l ++ firstn 1 (skipn i l) = firstn (S i) l.
Proof. induction l as [|x l IH]; intros [|i] H; cbn [List.length] in H; try lia; [reflexivity|]. cbn [firstn skipn app]. f_equal. apply IH. lia. Qed.
Lemma inserts : forall t k i a s1 s2, List.length s1 = a -> i + k = List.length t ->
  let es := map (fun i => Edit (a + i) (a + i) (firstn 1 (skipn i t))) (seq i k) in
  edits_ok (s1 ++ firstn i t ++ s2) es /\ edits_text (s1 ++ firstn i t ++ s2) es = s1 ++ t ++ s2.
Proof.
  induction k as [|k IH]; intros i a s1 s2 H K es.
  - split; [exact Logic.I|]. cbn. rewrite firstn_all2 by lia. reflexivity.
  - unfold es. cbn [seq map edits_ok edits_text fold_left].
    assert (E : edit_text (s1 ++ firstn i t ++ s2) (Edit (a + i) (a + i) (firstn 1 (skipn i t))) = s1 ++ firstn (S i) t ++ s2).
    { unfold edit_text. cbn [ed_start ed_end ed_text]. rewrite (app_assoc s1 (firstn i t) s2). assert (Lp : List.length (s1 ++ firstn i t) = a + i) by (rewrite app_length, firstn_length; lia).
      rewrite firstn_app, skipn_app, Lp, Nat.sub_diag. change (firstn 0 s2) with (@nil byte). change (skipn 0 s2) with s2. rewrite (firstn_all2 (s1 ++ firstn i t)) by lia. rewrite (skipn_all2 (s1 ++ firstn i t)) by lia.
      rewrite app_nil_r. cbn [app]. rewrite <- (firstn_snoc t i) by lia. rewrite <- !app_assoc. reflexivity. }
    rewrite E. destruct (IH (S i) a s1 s2 H ltac:(lia)) as [A B]. split; [split; [|exact A]|exact B].
    unfold edit_ok. cbn. rewrite !app_length, firstn_length. lia.
Qed.
Lemma edits_ok_app : forall a b s, edits_ok s a -> edits_ok (edits_text s a) b -> edits_ok s (a ++ b).
Proof. induction a as [|e a IH]; intros b s A B; [exact B|]. destruct A as [A1 A2]. split; [exact A1|]. apply IH; assumption. Qed.
Lemma single_one : forall s e, edit_ok s e -> edits_ok s (edit_to_edits e) /\ edits_text s (edit_to_edits e) = edit_text s e.
Proof.
  intros s [a b t] H. unfold edit_ok in H. cbn [ed_start ed_end] in H. unfold edit_to_edits. cbn [ed_start ed_end ed_text].
  destruct (removes (b - a) a s ltac:(lia) a) as [A B]. replace (a + (b - a)) with b in B by lia.
  assert (La : List.length (firstn a s) = a) by (rewrite firstn_length; lia).
  destruct (inserts t (List.length t) 0 a (firstn a s) (skipn b s) La eq_refl) as [C D]. cbn [firstn app] in C, D. split.
  - apply edits_ok_app; [exact A|]. rewrite B. exact C.
  - unfold edits_text in *. rewrite fold_left_app, B. exact D.
Qed.
Theorem single_all : forall es s, edits_ok s es -> edits_ok s (to_single_edits es) /\ edits_text s (to_single_edits es) = edits_text s es.
Proof.
  induction es as [|e es IH]; intros s H; [split; [exact Logic.I|reflexivity]|]. destruct H as [H1 H2]. destruct (single_one s e H1) as [A B].
  unfold to_single_edits. cbn [map List.concat]. fold (to_single_edits es). destruct (IH _ H2) as [C D]. split.
  - apply edits_ok_app; [exact A|]. rewrite B. exact C.
  - unfold edits_text in *. rewrite fold_left_app, B. exact D.
Qed.

Lemma single_shape : forall e, Forall of_one_byte (edit_to_edits e).
Proof.
  intros [a b t]. unfold edit_to_edits, of_one_byte. cbn [ed_start ed_end ed_text]. apply Forall_app. split; apply Forall_forall; intros x Hx; apply in_map_iff in Hx.
  - destruct Hx as (i & <- & _). left. cbn. auto.
  - destruct Hx as (i & <- & Hi). right. apply in_seq in Hi. cbn [ed_start ed_end ed_text]. split; [reflexivity|]. rewrite firstn_length, skipn_length. lia.
Qed.
Lemma singles_shape : forall es, Forall of_one_byte (to_single_edits es).
Proof.
  induction es as [|e es IH]; [constructor|]. unfold to_single_edits. cbn [map List.concat]. apply Forall_app. split; [apply single_shape|exact IH].
Qed.
Lemma one_gentle : forall e, of_one_byte e -> gentle e.
Proof. intros e [[A B]|[A B]]; unfold gentle; lia. Qed.

Section Table.
Context {CS : Type}.
Variable bufsz : nat.
Variable check : nat -> CS -> list byte -> list byte -> nat -> Z -> Z -> CS * option nat.
Variable threshold : Z.
Variable p : pattern.
Variable code : code.

Lemma gentle_history : forall es b s t, history bufsz check threshold p code b s t -> edits_ok s es -> Forall gentle es ->
  exists b', history bufsz check threshold p code b' (edits_text s es) (edits_table t es).
Proof.
  induction es as [|e es IH]; intros b s t H O G; [exists b; exact H|]. destruct O as [O1 O2]. inversion G; subst.
  unfold edits_text, edits_table. cbn [fold_left]. apply (IH true); [|exact O2|assumption]. apply (h_edit _ _ _ _ _ b); auto.
Qed.
Theorem typed_history : forall s t, typed bufsz check threshold p code s t -> exists b, history bufsz check threshold p code b s t.
Proof.
  intros s t H. induction H as [s|s t f cs r w' o st H [b IH] K P X|s t e H [b IH] E|s t h H [b IH]].
  - exists false. apply h_new.
  - exists b. eapply h_parse; eassumption.
  - destruct (single_one s e E) as [A B]. rewrite <- B. eapply gentle_history; [exact IH|exact A|].
    eapply Forall_impl; [|apply single_shape]. exact one_gentle.
  - exists b. apply h_ask. exact IH.
Qed.

Lemma gentle_session : forall es b r t s, session bufsz check threshold p code b r t -> rp_value r = Some s -> edits_ok s es -> Forall gentle es ->
  exists b' r', session bufsz check threshold p code b' r' (edits_table t es) /\ rp_value r' = Some (edits_text s es).
Proof.
  induction es as [|e es IH]; intros b r t s H V O G; [exists b, r; auto|]. destruct O as [O1 O2]. inversion G; subst.
  assert (L : rp_len r = List.length s).
  { destruct (session_history _ _ _ _ _ _ _ _ _ H) as (s' & M & _). destruct (C30_value _ _ M) as [V' L]. rewrite V in V'. injection V' as <-. exact L. }
  assert (He : ed_start e <= ed_end e <= rp_len r) by (rewrite L; exact O1).
  destruct (C60_edit _ _ _ _ _ _ _ _ _ e H He) as (s' & r1 & r2 & V' & E1 & E2 & V2). rewrite V in V'. injection V' as <-.
  apply (IH true r2); try assumption. eapply se_edit; try eassumption. right. assumption.
Qed.
Theorem single_session : forall es b r t s, session bufsz check threshold p code b r t -> rp_value r = Some s -> edits_ok s es ->
  exists b' r', session bufsz check threshold p code b' r' (edits_table t (to_single_edits es)) /\ rp_value r' = Some (edits_text s es).
Proof.
  intros es b r t s H V O. destruct (single_all es s O) as [A B]. rewrite <- B. eapply gentle_session; try eassumption.
  eapply Forall_impl; [|apply singles_shape]. exact one_gentle.
Qed.

End Table.
