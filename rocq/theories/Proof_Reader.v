From Verif Require Import Base Model_Input Model_Reader.

Lemma w_fill_ok : forall pending final buf need err rd buf',
  w_fill pending final buf need = (err, rd, buf') ->
  buf' ++ rd_stream rd = buf ++ concat pending ++ final /\
  (err = false -> need <= length buf') /\
  (err = true -> rd_stream rd = []) /\ (length buf <= length buf').
Proof.
  induction pending; intros final buf need err rd buf' H; simpl in H;
  destruct (Nat.leb_spec need (length buf)).
  - inversion H; subst. repeat split; intros; auto; discriminate.
  - inversion H; subst. simpl. rewrite !app_nil_r. repeat split; intros; auto; try discriminate.
    rewrite app_length. lia.
  - inversion H; subst. repeat split; intros; auto; try discriminate.
  - apply IHpending in H. destruct H as [A [B [C D]]]. repeat split; auto.
    + rewrite A. simpl. rewrite <- !app_assoc. reflexivity.
    + rewrite app_length in D. lia.
Qed.

Definition w_content (w : wrapper) : list byte := w_buf w ++ rd_stream (w_reader w).

Lemma firstn_skipn_app : forall {A} (a b : list A) off n, off + n <= length a ->
  firstn n (skipn off (a ++ b)) = firstn n (skipn off a).
Proof.
  intros. rewrite skipn_app. replace (off - length a) with 0 by lia. simpl.
  rewrite firstn_app, skipn_length. replace (n - (length a - off)) with 0 by lia.
  simpl. apply app_nil_r.
Qed.

Lemma w_read_at_ok : forall w off n b err w', w_read_at w off n = (b, err, w') ->
  w_content w' = w_content w /\ b = read_at (w_content w) off n /\
  (err = false -> length b = n) /\ (err = true -> rd_stream (w_reader w') = []).
Proof.
  intros w off n b err w' H. unfold w_read_at in H.
  destruct (Nat.leb_spec (off + n) (length (w_buf w))).
  - inversion H; subst. split; auto. split.
    + unfold read_at, w_content. symmetry. apply firstn_skipn_app. assumption.
    + split; intros; [|discriminate]. rewrite firstn_length, skipn_length. lia.
  - destruct (w_fill (rd_pending (w_reader w)) (rd_final (w_reader w)) (w_buf w) (off + n)) as [[e rd] buf] eqn:E.
    apply w_fill_ok in E. destruct E as [A [B [C D]]].
    assert (K : w_content (Wrapper rd buf) = w_content w).
    { unfold w_content; simpl. rewrite A. reflexivity. }
    destruct (Nat.leb_spec (length buf) off); inversion H; subst.
    + split; auto. split; [|split; auto].
      * destruct err.
        -- rewrite <- K. unfold w_content; simpl. rewrite C by reflexivity. rewrite app_nil_r.
           unfold read_at. rewrite skipn_all2 by assumption. rewrite firstn_nil. reflexivity.
        -- specialize (B eq_refl). assert (n = 0) as -> by lia. reflexivity.
      * intro Z. specialize (B Z). simpl. lia.
    + split; auto. split; [|split; auto].
      * rewrite <- K. unfold w_content; simpl. destruct err.
        -- rewrite C by reflexivity. rewrite app_nil_r. reflexivity.
        -- unfold read_at. symmetry. apply firstn_skipn_app. apply B. reflexivity.
      * intro Z. specialize (B Z). rewrite firstn_length, skipn_length. lia.
Qed.

(** a history of ReadAt calls *)
Fixpoint w_run (w : wrapper) (calls : list (nat * nat)) : list (list byte * bool) :=
  match calls with
  | [] => []
  | (off, n) :: calls => let '(b, err, w') := w_read_at w off n in (b, err) :: w_run w' calls
  end.

Lemma w_run_ok : forall calls w,
  Forall2 (fun c r => fst r = read_at (w_content w) (fst c) (snd c) /\
                      (snd r = false -> length (fst r) = snd c)) calls (w_run w calls).
Proof.
  induction calls as [|[off n] calls IH]; intros w; simpl; [constructor|].
  destruct (w_read_at w off n) as [[b err] w'] eqn:E.
  apply w_read_at_ok in E. destruct E as [A [B [C D]]]. constructor; auto.
  rewrite <- A. apply IH.
Qed.

Lemma from_reader_run : forall r calls,
  Forall2 (fun c res => fst res = firstn (snd c) (skipn (fst c) (rd_stream r)) /\
                        (length (fst res) < snd c -> snd res = true)) calls (w_run (from_reader r) calls).
Proof.
  intros r calls. pose proof (w_run_ok calls (from_reader r)) as H.
  change (w_content (from_reader r)) with (rd_stream r) in H.
  induction H as [|c res cs rs [A B] H IH]; constructor; auto. split; [exact A|].
  intro L. destruct (snd res) eqn:E; auto. rewrite B in L by reflexivity. lia.
Qed.

Lemma spurious_eof : exists r off n, let '(b, err, _) := w_read_at (from_reader r) off n in
  off + n < length (rd_stream r) /\ length b = n /\ err = true.
Proof. exists (Reader [] [x61;x62;x63]), 0, 1. vm_compute. auto. Qed.

Lemma w_slice_ok : forall r calls low high,
  let w := fold_left (fun w c => snd (w_read_at w (fst c) (snd c))) calls (from_reader r) in
  fst (w_slice w low high) = firstn (high - low) (skipn low (rd_stream r)).
Proof.
  intros r calls low high.
  assert (G : forall calls w, w_content (fold_left (fun w c => snd (w_read_at w (fst c) (snd c))) calls w) = w_content w).
  { induction calls0 as [|c cs IH]; intros w; simpl; auto.
    destruct (w_read_at w (fst c) (snd c)) as [[b e] w'] eqn:E. simpl. rewrite IH.
    apply w_read_at_ok in E. tauto. }
  cbv zeta. specialize (G calls (from_reader r)).
  set (w := fold_left _ _ _) in *. unfold w_slice.
  destruct (w_read_at w low (high - low)) as [[b e] w'] eqn:E.
  apply w_read_at_ok in E. destruct E as [_ [B _]]. simpl. rewrite B, G. reflexivity.
Qed.
