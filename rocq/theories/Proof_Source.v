From Verif Require Import Base Model_Input Model_Reader Model_Rope Model_Source Spec_Input Spec_Source Spec_Rope Proof_Input Proof_Reader Props_Rope.
Local Open Scope nat_scope.

Lemma nchunk_coff : forall d c b o f, i_nchunk (Input d c b o f) = List.length c.
Proof. reflexivity. Qed.

Section P.
Context {S : Type}.
Variable read : S -> nat -> nat -> option (list byte * S).
Variable bufsz : nat.
Hypothesis Hb : 0 < bufsz.
Variable data : list byte.
(** the reader delivers the bytes [data], in each of the states [I] *)
Variable I : S -> Prop.
Hypothesis Hr : forall r off n, I r -> exists r', read r off n = Some (read_at data off n, r') /\ I r'.

Definition sim (s : sinput) (i : input) : Prop :=
  i = Input data (firstn (s_n s) (s_array s)) (s_base s) (s_coff s) (s_far s) /\
  List.length (s_array s) = bufsz /\ s_n s <= bufsz /\ (s_coff s < s_n s \/ s_n s = 0 /\ s_coff s = 0).

Lemma sim_n : forall s i, sim s i -> i_nchunk i = s_n s.
Proof. intros s i (-> & L & N & _). unfold i_nchunk. cbn [i_chunk]. rewrite firstn_length. lia. Qed.
Lemma sim_nth : forall s i k, sim s i -> k < s_n s -> nth_error (s_array s) k = Some (nth k (i_chunk i) x00).
Proof.
  intros s i k H K. pose proof (sim_n s i H) as N. destruct H as (-> & L & M & _). unfold i_nchunk in N. cbn [i_chunk] in *.
  rewrite <- (nth_error_nth' _ x00) by lia. rewrite nth_error_firstn' by lia. reflexivity.
Qed.
Lemma sim_refill : forall r s i pos, I r -> List.length (s_array s) = bufsz -> i_data i = data -> i_furthest i = s_far s ->
  exists r' s', s_refill read bufsz r s pos = Some (r', s') /\ I r' /\ sim s' (i_refill bufsz i pos).
Proof.
  intros r s i pos HI L D F. unfold s_refill. destruct (Hr r pos bufsz HI) as (r' & -> & HI'). do 2 eexists. split; [reflexivity|]. split; [exact HI'|].
  pose proof (read_at_len data pos bufsz) as Q. unfold sim, i_refill. cbn [s_array s_n s_base s_coff s_far]. rewrite D, F.
  rewrite firstn_app, Nat.sub_diag, firstn_all, firstn_O, app_nil_r. split; [reflexivity|].
  rewrite app_length, skipn_length, L. set (m := List.length (read_at data pos bufsz)) in *. lia.
Qed.
Lemma sim_new : forall r, I r -> exists r' s', s_new read bufsz r = Some (r', s') /\ I r' /\ sim s' (i_new bufsz data).
Proof. intros r HI. unfold s_new, i_new. apply sim_refill; auto. cbn [s_array]. apply repeat_length. Qed.

Lemma sim_step : forall r s i op, I r -> sim s i ->
  exists r' s', s_step read bufsz r s op = Some (fst (i_step bufsz i op), r', s') /\ I r' /\ sim s' (snd (i_step bufsz i op)).
Proof.
  intros r s i op HI H. pose proof (sim_n s i H) as N. pose proof H as H0. destruct H as (E & L & M & C).
  assert (Db : i_base i = s_base s) by (rewrite E; reflexivity). assert (Dc : i_coff i = s_coff s) by (rewrite E; reflexivity).
  assert (Df : i_furthest i = s_far s) by (rewrite E; reflexivity). assert (Dd : i_data i = data) by (rewrite E; reflexivity).
  assert (Dch : i_chunk i = firstn (s_n s) (s_array s)) by (rewrite E; reflexivity).
  destruct op; cbn [i_step s_step].
  - unfold s_peek, i_peek. cbv zeta. cbn [fst snd]. rewrite N, Db, Dc, Df.
    destruct (nth_error (s_array s) (s_coff s)) as [b|] eqn:Eb; [|apply nth_error_None in Eb; lia].
    assert (V : (if s_n s =? 0 then None else Some b) = (if s_n s =? 0 then None else Some (nth (s_coff s) (i_chunk i) x00))).
    { destruct (Nat.eqb_spec (s_n s) 0); [reflexivity|]. rewrite (sim_nth s i (s_coff s) H0) in Eb by lia. injection Eb as <-. reflexivity. }
    do 2 eexists. rewrite V. split; [reflexivity|]. split; [exact HI|]. unfold sim. cbn [s_array s_n s_base s_coff s_far]. rewrite Dd, Dch. auto.
  - unfold s_peek_before, i_peek_before. cbn [fst snd]. rewrite N, Db, Dc, Dd.
    destruct (s_base s + s_coff s =? 0) eqn:E0; [do 2 eexists; split; [reflexivity|auto]|].
    destruct (Nat.leb_spec 1 (s_coff s)) as [L1|L1].
    + rewrite (sim_nth s i (s_coff s - 1) H0) by lia. do 2 eexists. split; [reflexivity|auto].
    + destruct (Hr r (s_base s + s_coff s - 1) 1 HI) as (r' & -> & HI'). do 2 eexists. split; [reflexivity|auto].
  - unfold s_seek, i_seek. cbv zeta. rewrite N, Db.
    destruct ((p <? s_base s + s_n s) && (s_base s <=? p)) eqn:Eb; cbn [fst snd].
    + do 2 eexists. split; [reflexivity|]. split; [exact HI|]. unfold sim. cbn [s_array s_n s_base s_coff s_far]. rewrite Dd, Dch, Df. split; [reflexivity|]. apply andb_true_iff in Eb. destruct Eb as [A B].
      apply Nat.ltb_lt in A. apply Nat.leb_le in B. lia.
    + destruct (sim_refill r s i p HI L Dd Df) as (r' & s' & -> & HI' & S'). pose proof (sim_n _ _ S') as N'. rewrite N'. do 2 eexists. split; [reflexivity|auto].
  - unfold s_advance, i_advance. cbv zeta. rewrite N. cbn [i_coff i_base s_n s_coff s_base]. rewrite !nchunk_coff. change (List.length (i_chunk i)) with (i_nchunk i). rewrite N, Db, Dc, Df, Dd.
    destruct (Nat.eqb_spec (s_n s) 0); cbn [fst snd]; [do 2 eexists; split; [reflexivity|auto]|].
    destruct (Nat.ltb_spec (s_n s) (s_coff s + n)) as [A|A]; cbn [fst snd].
    + destruct (sim_refill r (SInput (s_array s) (s_n s) (s_base s) (s_coff s + n) (s_far s)) (Input data (i_chunk i) (s_base s) (s_coff s + n) (s_far s)) (s_base s + (s_coff s + n)) HI L eq_refl eq_refl) as (r' & s' & -> & HI' & S').
      do 2 eexists. split; [reflexivity|]. split; [exact HI'|]. exact S'.
    + destruct (Nat.eqb_spec (s_coff s + n) (s_n s)) as [B|B]; cbn [fst snd].
      * destruct (sim_refill r (SInput (s_array s) (s_n s) (s_base s) (s_coff s + n) (s_far s)) (Input data (i_chunk i) (s_base s) (s_coff s + n) (s_far s)) (s_base s + (s_coff s + n)) HI L eq_refl eq_refl) as (r' & s' & -> & HI' & S').
        do 2 eexists. split; [reflexivity|auto].
      * do 2 eexists. split; [reflexivity|]. split; [exact HI|]. unfold sim. cbn [s_array s_n s_base s_coff s_far]. rewrite Dch. split; [reflexivity|]. lia.
  - cbn [fst snd]. unfold i_pos. rewrite Db, Dc. do 2 eexists. split; [reflexivity|auto].
  - cbn [fst snd]. rewrite Df. do 2 eexists. split; [reflexivity|auto].
  - cbn [fst snd]. do 2 eexists. split; [reflexivity|]. split; [exact HI|]. unfold sim, i_reset_furthest. cbn [s_array s_n s_base s_coff s_far]. rewrite Dd, Dch, Db, Dc. auto.
  - cbn [fst snd]. unfold s_slice, i_slice. rewrite Dd. destruct (Hr r low (high - low) HI) as (r' & -> & HI'). do 2 eexists. split; [reflexivity|auto].
Qed.

Definition sims (m : inputs) (m' : nat -> option input) : Prop :=
  forall k, match m k, m' k with Some s, Some i => sim s i | None, None => True | _, _ => False end.

Lemma of_cons : forall {A} k j (a : A) l, of k ((j, a) :: l) = if j =? k then a :: of k l else of k l.
Proof. intros A k j a l. unfold of. cbn [filter fst]. destruct (j =? k); reflexivity. Qed.

Lemma run_sim : forall sched r m m', I r -> sims m m' ->
  exists obs, s_run read bufsz r m sched = Some obs /\ forall k, of k obs = solo bufsz data (m' k) (of k sched).
Proof.
  induction sched as [|[k [|op]] sched IH]; intros r m m' HI HS; cbn [s_run].
  - exists []. split; [reflexivity|]. intro k. reflexivity.
  - destruct (sim_new r HI) as (r' & s' & -> & HI' & Sm).
    destruct (IH r' (put_input m k s') (fun j => if j =? k then Some (i_new bufsz data) else m' j) HI') as (obs & E & K).
    { intro j. unfold put_input. destruct (j =? k); [exact Sm|apply HS]. }
    exists obs. split; [exact E|]. intro j. rewrite K, of_cons, (Nat.eqb_sym k j). destruct (j =? k); reflexivity.
  - pose proof (HS k) as Hk. destruct (m k) as [s|] eqn:Em.
    + destruct (m' k) as [i|] eqn:Em'; [|destruct Hk].
      destruct (sim_step r s i op HI Hk) as (r' & s' & -> & HI' & Sm).
      destruct (IH r' (put_input m k s') (fun j => if j =? k then Some (snd (i_step bufsz i op)) else m' j) HI') as (obs & E & K).
      { intro j. unfold put_input. destruct (j =? k); [exact Sm|apply HS]. }
      rewrite E. cbn [option_map]. eexists. split; [reflexivity|]. intro j. rewrite !of_cons, K, (Nat.eqb_sym k j). destruct (Nat.eqb_spec j k) as [->|]; [|reflexivity].
      rewrite Em'. cbn [solo]. destruct (i_step bufsz i op) as [o i']. reflexivity.
    + destruct (m' k) as [i|] eqn:Em'; [destruct Hk|].
      destruct (IH r m m' HI HS) as (obs & E & K). exists obs. split; [exact E|]. intro j. rewrite K, of_cons, (Nat.eqb_sym k j). destruct (Nat.eqb_spec j k) as [->|]; [|reflexivity].
      rewrite Em'. reflexivity.
Qed.
End P.

Lemma run_all : forall {S} (read : S -> nat -> nat -> option (list byte * S)) (I : S -> Prop) data bufsz sched r, 0 < bufsz ->
  (forall r off n, I r -> exists r', read r off n = Some (read_at data off n, r') /\ I r') -> I r ->
  exists obs, s_run read bufsz r (fun _ => None) sched = Some obs /\ forall k, of k obs = solo bufsz data None (of k sched).
Proof.
  intros S read I data bufsz sched r Hb Hr HI. apply (run_sim read bufsz Hb data I Hr sched r (fun _ => None) (fun _ => None) HI).
  intro k. exact Logic.I.
Qed.

Lemma rope_reads : forall r b off n, made splits r b -> read_rope r off n = Some (read_at b off n, r).
Proof.
  intros r b off n H. unfold read_rope, read_at. destruct (Nat.le_gt_cases off (List.length b)) as [L|L].
  - rewrite (C31_read r b n off H L). reflexivity.
  - rewrite (C31_read_beyond r b n off H L), skipn_all2, firstn_nil by lia. reflexivity.
Qed.
Lemma stream_reads : forall w off n, exists w', read_stream w off n = Some (read_at (w_content w) off n, w') /\ w_content w' = w_content w.
Proof.
  intros w off n. unfold read_stream. destruct (w_read_at w off n) as [[b err] w'] eqn:E. apply w_read_at_ok in E. destruct E as (A & -> & _).
  exists w'. auto.
Qed.

Lemma step_data : forall bufsz i op, i_data (snd (i_step bufsz i op)) = i_data i.
Proof.
  intros bufsz i op. destruct op; cbn [i_step]; try reflexivity.
  - unfold i_seek. cbv zeta. destruct ((p <? i_base i + i_nchunk i) && (i_base i <=? p)); reflexivity.
  - pose proof (advance_data bufsz i n) as D. destruct (i_advance bufsz i n). exact D.
Qed.
Lemma solo_unit : forall bufsz data, 0 < bufsz -> forall acts i, inv bufsz i -> i_data i = data ->
  Forall (fun a => match a with Do op => unit_advance op | New => True end) acts ->
  solo bufsz data (Some i) acts = solo_cursor data (Some (abs i)) acts.
Proof.
  intros bufsz data Hb. induction acts as [|[|op] acts IH]; intros i Hi D F; [reflexivity| |]; inversion F; subst; cbn [solo solo_cursor].
  - rewrite <- (abs_new bufsz (i_data i)). apply IH; [apply inv_new; exact Hb|reflexivity|assumption].
  - destruct (step_refines bufsz Hb i op Hi) as [A B]; [assumption|]. rewrite B. pose proof (step_data bufsz i op) as D'.
    destruct (i_step bufsz i op) as [o i']. cbn [fst snd] in *. f_equal. apply IH; [exact A|exact D'|assumption].
Qed.
Lemma solo_none : forall bufsz data, 0 < bufsz -> forall acts,
  Forall (fun a => match a with Do op => unit_advance op | New => True end) acts ->
  solo bufsz data None acts = solo_cursor data None acts.
Proof.
  intros bufsz data Hb. induction acts as [|[|op] acts IH]; intros F; [reflexivity| |]; inversion F; subst; cbn [solo solo_cursor].
  - rewrite <- (abs_new bufsz data). apply solo_unit; [exact Hb|apply inv_new; exact Hb|reflexivity|assumption].
  - apply IH. assumption.
Qed.
