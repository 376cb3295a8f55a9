(** A parse changes the table only through its operations. *)
From Coq Require Import ZArith.
From Verif Require Import Base Model_Charset Model_Isa Model_Capture Model_Input Model_Code Model_VM Model_Pattern Model_Table Model_Share Spec_Peg Spec_Scope Spec_Run Spec_Memo.
Local Open Scope nat_scope.

(* ---------- the table only changes through its operations ---------- *)
Section Mono.
Variable bufsz : nat.
Variable T : Type.
Variable ops : table_ops T.
Variable CS : Type.
Variable check : nat -> CS -> list byte -> list byte -> nat -> Z -> Z -> CS * option nat.
Variable R : T -> T -> Prop.
Hypothesis R_refl : forall t, R t t.
Hypothesis R_trans : forall a b c, R a b -> R b c -> R a c.
Hypothesis R_get : forall t id pos, R t (snd (t_get ops t id pos)).
Hypothesis R_put : forall t id pos len e c cs, 0 < e -> R t (t_put ops t id pos len e c cs).
Notation mstate := (mstate T CS).
Implicit Types st : mstate.

Lemma tbl_add : forall cs st, m_tbl (add cs st) = m_tbl st.
Proof. intros cs st. unfold add. destruct (add_capt cs (m_stk st) (m_base st)). reflexivity. Qed.
Lemma tbl_pop : forall b st, m_tbl (snd (pop b st)) = m_tbl st.
Proof. intros b st. unfold pop. destruct (m_stk st); [reflexivity|]. cbn [snd]. destruct b; [rewrite tbl_add|]; reflexivity. Qed.
Lemma tbl_peek : forall st, m_tbl (snd (peek st)) = m_tbl st.
Proof. intros st. unfold peek. destruct (i_peek (m_src st)). reflexivity. Qed.
Lemma tbl_span : forall n s st, m_tbl (span_loop bufsz n s st) = m_tbl st.
Proof.
  induction n as [|n IH]; intros s st; cbn [span_loop]; pose proof (tbl_peek st) as P; destruct (peek st) as [[b|] st1]; cbn [snd] in P; try exact P.
  destruct (cs_has s b); [|exact P]. rewrite IH. exact P.
Qed.
Lemma tbl_close : forall n id st, m_tbl (tree_close n id st) = m_tbl st.
Proof.
  induction n as [|n IH]; intros id st; cbn [tree_close]; [reflexivity|]. destruct (m_stk st) as [|[[] cs] l]; try reflexivity. destruct (_ =? id)%Z; [|reflexivity]. rewrite IH. apply tbl_pop.
Qed.
Lemma tbl_pops : forall n st, m_tbl (tree_pops n st) = m_tbl st.
Proof. induction n as [|n IH]; intro st; cbn [tree_pops]; [reflexivity|]. rewrite IH. apply tbl_pop. Qed.
Lemma tbl_node : forall i id l h cs st, m_tbl (add_node i id l h cs st) = m_tbl st.
Proof. intros i id l h cs st. unfold add_node. destruct (ivl_overlaps i l h); [|reflexivity]. rewrite tbl_add. reflexivity. Qed.
Lemma R_memoize : forall i id pos l c cs st, R (m_tbl st) (m_tbl (memoize ops i id pos l c cs st)).
Proof. intros. apply R_put. lia. Qed.
Lemma R_loop : forall i n seen accum st, R (m_tbl st) (m_tbl (tree_loop ops i n seen accum st)).
Proof.
  intros i. induction n as [|n IH]; intros seen accum st; cbn [tree_loop]; [apply R_refl|].
  destruct (nth_error (m_stk st) seen) as [[[] c1]|]; try apply R_refl. destruct (nth_error (m_stk st) (S seen)) as [[[] c2]|]; try apply R_refl.
  destruct (_ <? _); [apply IH|].
  assert (H : m_tbl (snd (pop false (tree_pops (S seen - 1) st))) = m_tbl st) by (rewrite tbl_pop; apply tbl_pops).
  destruct (pop false (tree_pops (S seen - 1) st)) as [ent st1]. cbn [snd] in H.
  match goal with |- R _ (m_tbl (match m_stk ?x with _ => _ end)) => set (st2 := x) end.
  assert (H2 : m_tbl st2 = m_tbl st).
  { subst st2. destruct ent as [[[] [|c l]]|]; try exact H. destruct i; rewrite tbl_add; exact H. }
  destruct (m_stk st2) as [|[[] c3] l]; try (rewrite H2; apply R_refl).
  eapply R_trans; [|apply IH]. rewrite <- H2. unfold memoize. cbn [m_tbl set_tbl set_stk]. apply R_put. lia.
Qed.
Definition Rres (t : T) (r : step_res T CS) : Prop :=
  match r with Next st => R t (m_tbl st) | Done _ st => R t (m_tbl st) | Crash => True end.
Lemma R_fail : forall i stk st, Rres (m_tbl st) (do_fail bufsz ops i stk st).
Proof.
  intro i. induction stk as [|[k cs] stk IH]; intro st; cbn [do_fail s_kind]; [apply R_refl|].
  destruct k; try apply IH; try apply R_refl. assert (Rres (m_tbl (memoize ops i id pos None 0 [] st)) (do_fail bufsz ops i stk (memoize ops i id pos None 0 [] st))) as H by apply IH.
  assert (M : R (m_tbl st) (m_tbl (memoize ops i id pos None 0 [] st))) by apply R_memoize.
  destruct (do_fail bufsz ops i stk _); cbn [Rres] in *; try exact Logic.I; eapply R_trans; eassumption.
Qed.
Lemma R_of : forall t r, (exists t', t' = t /\ Rres t' r) -> Rres t r.
Proof. intros t r (t' & -> & H). exact H. Qed.
Lemma R_exec : forall iv i next st, Rres (m_tbl st) (exec_d bufsz ops check iv i next st).
Proof.
  intros iv i next st.
  assert (F : forall st1, m_tbl st1 = m_tbl st -> Rres (m_tbl st) (fail bufsz ops iv st1)) by (intros st1 <-; apply R_fail).
  assert (N : forall st1, m_tbl st1 = m_tbl st -> Rres (m_tbl st) (Next st1)) by (intros st1 H; cbn [Rres]; rewrite H; apply R_refl).
  pose proof (tbl_peek st) as P. pose proof (tbl_pop true st) as Q. pose proof (tbl_pop false st) as Q'.
  destruct i; cbn [exec_d]; try exact Logic.I; try (apply N; reflexivity).
  - destruct (peek st) as [[c|] st1]; cbn [snd] in P; [|apply F; exact P]. destruct (byte_eqb b c); [apply N|apply F]; exact P.
  - apply N. exact Q.
  - destruct (pop true st) as [[[[] c]|] st1]; try exact Logic.I. apply N. exact Q.
  - apply F. reflexivity.
  - destruct (peek st) as [[c|] st1]; cbn [snd] in P; [|apply F; exact P]. destruct (cs_has s c); [apply N|apply F]; exact P.
  - destruct (i_advance bufsz (m_src st) (N.to_nat (bN n))) as [[] src]; [apply N|apply F]; reflexivity.
  - destruct (m_stk st) as [|[[] c] l1]; try exact Logic.I. destruct (add_capt c l1 (m_base st)). apply N. reflexivity.
  - apply N. apply tbl_span.
  - destruct (pop true st) as [[[[] c]|] st1]; try exact Logic.I. apply N. exact Q.
  - apply F. exact Q'.
  - destruct (peek st) as [b2 st1]; cbn [snd] in P. destruct (_ =? 0)%N; [apply F|apply N]; exact P.
  - destruct (peek st) as [[c|] st1]; cbn [snd] in P; [|apply N; exact P]. destruct (byte_eqb c b); apply N; exact P.
  - destruct (peek st) as [[c|] st1]; cbn [snd] in P; [|apply N; exact P]. destruct (byte_eqb c b); apply N; exact P.
  - destruct (peek st) as [[c|] st1]; cbn [snd] in P; [|apply N; exact P]. destruct (cs_has s c); apply N; exact P.
  - destruct (peek st) as [[c|] st1]; cbn [snd] in P; [|apply N; exact P]. destruct (cs_has s c); apply N; exact P.
  - destruct (i_advance bufsz (m_src st) (N.to_nat (bN n))) as [[] src]; apply N; reflexivity.
  - pose proof (R_get (m_tbl st) id (mpos st)) as G. destruct (t_get ops (m_tbl st) id (mpos st)) as [[[[len|] cnt cs]|] t1]; cbn [snd] in G.
    + cbn [Rres]. change (R (m_tbl st) (m_tbl (add cs (set_tbl t1 st)))). rewrite tbl_add. exact G.
    + assert (H : Rres (m_tbl (set_tbl t1 st)) (fail bufsz ops iv (set_tbl t1 st))) by apply R_fail.
      destruct (fail bufsz ops iv (set_tbl t1 st)); cbn [Rres] in *; try exact Logic.I; eapply R_trans; eassumption.
    + exact G.
  - destruct (pop true st) as [[[[] c]|] st1]; try exact Logic.I. cbn [snd] in Q. rewrite <- Q. cbn [Rres]. apply R_put. lia.
  - pose proof (R_get (m_tbl st) id (mpos st)) as G. destruct (t_get ops (m_tbl st) id (mpos st)) as [[[[len|] cnt cs]|] t1]; cbn [snd] in G.
    + match goal with |- Rres _ (Next (set_ip _ (snd (peek ?x)))) => pose proof (tbl_peek x) as P2 end. cbn [Rres]. unfold set_ip at 1. cbn [m_tbl]. rewrite P2.
      match goal with |- R _ (m_tbl (advance _ _ (add ?c ?x))) => change (R (m_tbl st) (m_tbl (add c x))); rewrite tbl_add end. exact G.
    + assert (H : Rres (m_tbl (set_tbl t1 st)) (fail bufsz ops iv (set_tbl t1 st))) by apply R_fail.
      destruct (fail bufsz ops iv (set_tbl t1 st)); cbn [Rres] in *; try exact Logic.I; eapply R_trans; eassumption.
    + exact G.
  - destruct (m_stk st) as [|[[] c] l1]; try exact Logic.I. cbn [Rres]. apply R_put. lia.
  - cbn [Rres]. apply (R_loop iv).
  - apply N. apply tbl_close.
  - destruct (pop false st) as [[[[] c]|] st1]; try exact Logic.I. apply N. cbn. rewrite tbl_node. exact Q'.
  - apply N. cbn. apply tbl_node.
  - destruct (pop true st) as [[[[] c]|] st1]; try exact Logic.I. destruct (check _ _ _ _ _ _ _) as [cs1 [n|]]; [apply N|apply F]; exact Q.
Qed.
Lemma R_step : forall iv code st, Rres (m_tbl st) (vm_step bufsz ops check iv code st).
Proof. intros iv code st. unfold vm_step. destruct (decode code (m_ip st)); [apply R_exec|exact Logic.I]. Qed.
Lemma R_run : forall iv code f st o st', run (vm_step bufsz ops check iv code) f st = Some (ROk o st') -> forall n, R (m_tbl (state_after (vm_step bufsz ops check iv code) n st)) (m_tbl st').
Proof.
  intros iv code. induction f as [|f IH]; intros st o st' H n; [discriminate|]. cbn [run] in H. pose proof (R_step iv code st) as S. destruct n as [|n]; cbn [state_after].
  - destruct (vm_step bufsz ops check iv code st) as [st1|o1 st1|]; cbn [Rres] in S.
    + eapply R_trans; [exact S|]. exact (IH _ _ _ H 0).
    + injection H as <- <-. exact S.
    + discriminate.
  - destruct (vm_step bufsz ops check iv code st) as [st1|o1 st1|]; cbn [Rres] in S.
    + exact (IH _ _ _ H n).
    + injection H as <- <-. apply R_refl.
    + discriminate.
Qed.
End Mono.
