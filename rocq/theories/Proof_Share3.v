(** Two runs of a parse whose tables answer alike up to some operation. *)
From Coq Require Import ZArith.
From Verif Require Import Base Model_Charset Model_Isa Model_Capture Model_Input Model_Code Model_VM Model_Table Model_Share Proof_Share.
Local Open Scope nat_scope.

Section Two.
Variable bufsz : nat.
Variable T : Type.
Variable ops : table_ops T.
Variable CS : Type.
Variable check : nat -> CS -> list byte -> list byte -> nat -> Z -> Z -> CS * option nat.
Variable R : T -> T -> Prop.
Hypothesis R_refl : forall t, R t t.
Hypothesis R_trans : forall a b c, R a b -> R b c -> R a c.
Hypothesis R_get : forall t id pos, R t (snd (t_get ops t id pos)).
Hypothesis R_put : forall t id pos len e c cs, 0 < e -> R t (t_put ops t id pos len e c cs).
Variable G B : T -> T -> Prop.
Hypothesis B_mono : forall x y x' y', B x y -> R x x' -> R y y' -> B x' y'.
Hypothesis G_get : forall x y id pos, G x y ->
  (fst (t_get ops x id pos) = fst (t_get ops y id pos) /\ G (snd (t_get ops x id pos)) (snd (t_get ops y id pos))) \/ B (snd (t_get ops x id pos)) (snd (t_get ops y id pos)).
Hypothesis G_put : forall x y id pos len e c cs, G x y ->
  G (t_put ops x id pos len e c cs) (t_put ops y id pos len e c cs) \/ B (t_put ops x id pos len e c cs) (t_put ops y id pos len e c cs).
Notation mstate := (mstate T CS).
Implicit Types st : mstate.

Lemma st_pop : forall y b st, pop b (set_tbl y st) = (fst (pop b st), set_tbl y (snd (pop b st))).
Proof. intros y b st. destruct st as [ip src [|[k c] l] base tbl e cs r]; [reflexivity|]. unfold pop. cbn. destruct b; [|reflexivity]. unfold add. cbn. destruct (add_capt c l base). reflexivity. Qed.
Lemma st_add : forall y cs st, add cs (set_tbl y st) = set_tbl y (add cs st).
Proof. intros y cs st. unfold add. cbn. destruct (add_capt cs (m_stk st) (m_base st)). reflexivity. Qed.
Lemma st_peek : forall y st, peek (set_tbl y st) = (fst (peek st), set_tbl y (snd (peek st))).
Proof. intros y st. unfold peek. cbn. destruct (i_peek (m_src st)). reflexivity. Qed.
Lemma st_span : forall y n s st, span_loop bufsz n s (set_tbl y st) = set_tbl y (span_loop bufsz n s st).
Proof.
  intros y. induction n as [|n IH]; intros s st; cbn [span_loop]; rewrite st_peek; destruct (peek st) as [[b|] st1]; cbn [fst snd]; try reflexivity.
  destruct (cs_has s b); [|reflexivity]. exact (IH s (advance1 bufsz st1)).
Qed.
Lemma st_close : forall y n id st, tree_close n id (set_tbl y st) = set_tbl y (tree_close n id st).
Proof.
  intro y. induction n as [|n IH]; intros id st; cbn [tree_close]; [reflexivity|]. change (m_stk (set_tbl y st)) with (m_stk st).
  destruct (m_stk st) as [|[[] cs] l]; try reflexivity. destruct (_ =? id)%Z; [|reflexivity]. rewrite st_pop. cbn [snd]. apply IH.
Qed.
Lemma st_pops : forall y n st, tree_pops n (set_tbl y st) = set_tbl y (tree_pops n st).
Proof. intro y. induction n as [|n IH]; intro st; cbn [tree_pops]; [reflexivity|]. rewrite st_pop. cbn [snd]. apply IH. Qed.
Lemma st_node : forall y i id l h cs st, add_node i id l h cs (set_tbl y st) = set_tbl y (add_node i id l h cs st).
Proof. intros y i id l h cs st. unfold add_node. destruct (ivl_overlaps i l h); [|reflexivity]. cbn. rewrite <- st_add. reflexivity. Qed.
Lemma st_memoize : forall y i id pos l c cs st, memoize ops i id pos l c cs (set_tbl y st) = set_tbl (m_tbl (memoize ops i id pos l c cs (set_tbl y st))) (memoize ops i id pos l c cs st).
Proof. reflexivity. Qed.

(** the states are equal up to their tables, which are related; or the tables have taken different ways *)
Definition Q (a b : mstate) : Prop := (exists y, b = set_tbl y a /\ G (m_tbl a) y) \/ B (m_tbl a) (m_tbl b).
Definition QR (a b : step_res T CS) : Prop :=
  match a, b with
  | Next a, Next b => Q a b
  | Done o a, Done o' b => (o = o' /\ exists y, b = set_tbl y a /\ G (m_tbl a) y) \/ B (m_tbl a) (m_tbl b)
  | Next a, Done _ b | Done _ a, Next b => B (m_tbl a) (m_tbl b)
  | Crash, Crash => True
  | _, _ => False
  end.
Lemma Q_set : forall a y, G (m_tbl a) y -> Q a (set_tbl y a).
Proof. intros a y H. left. exists y. auto. Qed.
Lemma Q_memoize : forall i id pos l c cs a y, G (m_tbl a) y -> Q (memoize ops i id pos l c cs a) (memoize ops i id pos l c cs (set_tbl y a)).
Proof.
  intros i id pos l c cs a y H. destruct (G_put (m_tbl a) y id pos l (Nat.max (i_furthest (m_src a)) (mpos a) - pos + 1) c (match i with Some _ => [] | None => cs end) H) as [K|K]; [left|right; exact K].
  eexists. split; [apply st_memoize|exact K].
Qed.
Lemma B_res : forall a b r r', B a b -> Rres T CS R a r -> Rres T CS R b r' -> r <> Crash -> r' <> Crash -> QR r r'.
Proof. intros a b r r' H K K' N N'. destruct r, r'; try contradiction; cbn in *; try (right; eapply B_mono; eassumption); eapply B_mono; eassumption. Qed.
Lemma fail_nocrash : forall i stk st, do_fail bufsz ops i stk st <> Crash.
Proof. intros i. induction stk as [|[k c] stk IH]; intro st; cbn [do_fail s_kind]; [discriminate|]. destruct k; try discriminate; apply IH. Qed.
Lemma Q_fail : forall i stk a b, Q a b -> QR (do_fail bufsz ops i stk a) (do_fail bufsz ops i stk b).
Proof.
  intros i. induction stk as [|[k c] stk IH]; intros a b H; (destruct H as [(y & -> & H)|H];
    [|eapply B_res; [exact H|apply R_fail; assumption|apply R_fail; assumption|apply fail_nocrash|apply fail_nocrash]]).
  - left. split; [reflexivity|]. exists y. split; [reflexivity|exact H].
  - cbn [do_fail s_kind]. destruct k; try (apply IH; apply Q_set; exact H).
    + left. exists y. split; [reflexivity|exact H].
    + apply IH. apply Q_memoize. exact H.
    + left. exists y. split; [reflexivity|exact H].
Qed.
Lemma Q_loop : forall i n seen accum a b, Q a b -> Q (tree_loop ops i n seen accum a) (tree_loop ops i n seen accum b).
Proof.
  intros i. induction n as [|n IH]; intros seen accum a b H; [exact H|]. destruct H as [(y & -> & H)|H].
  2: { right. eapply B_mono; [exact H|apply R_loop; assumption|apply R_loop; assumption]. }
  cbn [tree_loop]. change (m_stk (set_tbl y a)) with (m_stk a).
  destruct (nth_error (m_stk a) seen) as [[[] c1]|]; try (apply Q_set; exact H). destruct (nth_error (m_stk a) (S seen)) as [[[] c2]|]; try (apply Q_set; exact H).
  destruct (_ <? _); [apply IH; apply Q_set; exact H|].
  rewrite st_pops, st_pop.
  assert (H1 : m_tbl (snd (pop false (tree_pops (S seen - 1) a))) = m_tbl a) by (rewrite tbl_pop; apply tbl_pops).
  destruct (pop false (tree_pops (S seen - 1) a)) as [ent st1]. cbn [fst snd] in *.
  match goal with |- Q (match m_stk ?x with _ => _ end) (match m_stk ?z with _ => _ end) => set (st2 := x); set (st3 := z) end.
  assert (H2 : m_tbl st2 = m_tbl a /\ st3 = set_tbl y st2).
  { subst st2 st3. destruct ent as [[[] [|c l]]|]; try (split; [exact H1|reflexivity]). destruct i; rewrite st_add, tbl_add; (split; [exact H1|reflexivity]). }
  destruct H2 as [H2 ->]. rewrite <- H2 in H. change (m_stk (set_tbl y st2)) with (m_stk st2). destruct (m_stk st2) as [|[[] c3] l]; try (apply Q_set; exact H).
  apply IH. apply (Q_memoize i id0 pos0 _ _ _ (set_stk _ (m_base st2) st2)). exact H.
Qed.
Lemma Q_exec : forall iv i next a b, Q a b -> QR (exec_d bufsz ops check iv i next a) (exec_d bufsz ops check iv i next b) \/ B (m_tbl a) (m_tbl b).
Proof.
  intros iv i next a b H. destruct H as [(y & -> & H)|H]; [left|right; exact H].
  assert (N : forall st1, m_tbl st1 = m_tbl a -> QR (Next st1) (Next (set_tbl y st1))) by (intros st1 E; apply Q_set; rewrite E; exact H).
  assert (F : forall st1, m_tbl st1 = m_tbl a -> QR (fail bufsz ops iv st1) (fail bufsz ops iv (set_tbl y st1))) by (intros st1 E; apply Q_fail; apply Q_set; rewrite E; exact H).
  pose proof (tbl_peek _ _ a) as P. pose proof (tbl_pop _ _ true a) as QQ. pose proof (tbl_pop _ _ false a) as Q'.
  destruct i; cbn [exec_d]; try exact Logic.I; try (apply (N (set_ip l a)); reflexivity); try (apply (N (set_ip next a)); reflexivity);
    try (change (mpos (set_tbl y a)) with (mpos a); match goal with |- QR (Next (set_ip ?l (push ?k _))) _ => apply (N (set_ip l (push k a))); reflexivity end).
  - rewrite st_peek. destruct (peek a) as [[c|] st1]; cbn [fst snd] in *; [|apply F; exact P]. destruct (byte_eqb b c); [apply (N (set_ip next (advance1 bufsz st1)))|apply F]; exact P.
  - rewrite st_pop. apply (N (set_ip l (snd (pop true a)))). exact QQ.
  - rewrite st_pop. destruct (pop true a) as [[[[] c]|] st1]; cbn [fst snd] in *; try exact Logic.I. apply (N (set_ip _ st1)). exact QQ.
  - apply F. reflexivity.
  - rewrite st_peek. destruct (peek a) as [[c|] st1]; cbn [fst snd] in *; [|apply F; exact P]. destruct (cs_has s c); [apply (N (set_ip next (advance1 bufsz st1)))|apply F]; exact P.
  - change (m_src (set_tbl y a)) with (m_src a). destruct (i_advance bufsz (m_src a) (N.to_nat (bN n))) as [[] src]; [apply (N (set_ip next (set_src src a)))|apply (F (set_src src a))]; reflexivity.
  - change (m_stk (set_tbl y a)) with (m_stk a). change (m_base (set_tbl y a)) with (m_base a). destruct (m_stk a) as [|[[] c] l1]; try exact Logic.I. destruct (add_capt c l1 (m_base a)) as [k0 b0]. apply (N (set_ip l (set_stk _ b0 a))). reflexivity.
  - change (m_src (set_tbl y a)) with (m_src a). rewrite st_span. apply (N (set_ip next (span_loop bufsz _ s a))). apply tbl_span.
  - rewrite st_pop. destruct (pop true a) as [[[[] c]|] st1]; cbn [fst snd] in *; try exact Logic.I. apply (N (set_ip l (set_src _ st1))). exact QQ.
  - rewrite st_pop. apply F. exact Q'.
  - rewrite st_peek. change (m_src (set_tbl y a)) with (m_src a). destruct (peek a) as [b2 st1]; cbn [fst snd] in *. destruct (_ =? 0)%N; [apply F|apply (N (set_ip next st1))]; exact P.
  - rewrite st_peek. destruct (peek a) as [[c|] st1]; cbn [fst snd] in *; [|apply (N (set_ip l st1)); exact P]. destruct (byte_eqb c b); [apply (N (set_ip next (advance1 bufsz (push _ st1))))|apply (N (set_ip l st1))]; exact P.
  - rewrite st_peek. destruct (peek a) as [[c|] st1]; cbn [fst snd] in *; [|apply (N (set_ip l st1)); exact P]. destruct (byte_eqb c b); [apply (N (set_ip next (advance1 bufsz st1)))|apply (N (set_ip l st1))]; exact P.
  - rewrite st_peek. destruct (peek a) as [[c|] st1]; cbn [fst snd] in *; [|apply (N (set_ip l st1)); exact P]. destruct (cs_has s c); [apply (N (set_ip next (advance1 bufsz (push _ st1))))|apply (N (set_ip l st1))]; exact P.
  - rewrite st_peek. destruct (peek a) as [[c|] st1]; cbn [fst snd] in *; [|apply (N (set_ip l st1)); exact P]. destruct (cs_has s c); [apply (N (set_ip next (advance1 bufsz st1)))|apply (N (set_ip l st1))]; exact P.
  - change (m_src (set_tbl y a)) with (m_src a). destruct (i_advance bufsz (m_src a) (N.to_nat (bN n))) as [[] src]; [apply (N (set_ip next (push _ (set_src src a))))|apply (N (set_ip l (set_src src a)))]; reflexivity.
  - left. split; [reflexivity|]. exists y. auto.
  - change (mpos (set_tbl y a)) with (mpos a). change (m_tbl (set_tbl y a)) with y. pose proof (G_get (m_tbl a) y id (mpos a) H) as K.
    destruct (t_get ops (m_tbl a) id (mpos a)) as [e1 t1]. destruct (t_get ops y id (mpos a)) as [e2 t2]. cbn [fst snd] in K. destruct K as [[<- K]|K].
    + change (set_tbl t2 (set_tbl y a)) with (set_tbl t2 (set_tbl t1 a)). destruct e1 as [[[len|] cnt cs]|].
      * rewrite (st_add t2 cs (set_tbl t1 a)). apply (Q_set (set_ip l (advance bufsz len (add cs (set_tbl t1 a)))) t2). cbn. rewrite tbl_add. exact K.
      * apply Q_fail. apply Q_set. exact K.
      * apply (Q_set (set_ip next (push _ (set_tbl t1 a))) t2). exact K.
    + assert (Z : forall (e : option mentry) (z : mstate) t, exists r : step_res T CS, Rres T CS R t r /\ r <> Crash /\ match e with
        | Some (MEntry (Some len) _ cs) => Next (set_ip l (advance bufsz len (add cs (set_tbl t z))))
        | Some (MEntry None _ _) => fail bufsz ops iv (set_tbl t z)
        | None => Next (set_ip next (push (KMemo id (mpos (set_tbl t z))) (set_tbl t z))) end = r).
      { intros e z t. eexists. split; [|split; [|reflexivity]]; destruct e as [[[len|] cnt cs]|]; try discriminate; try apply fail_nocrash; try apply R_refl.
        - cbn. rewrite tbl_add. apply R_refl.
        - apply (R_fail bufsz T ops CS R R_refl R_trans R_put iv _ (set_tbl t z)). }
      destruct (Z e1 a t1) as (s1 & A1 & A2 & A3). destruct (Z e2 (set_tbl y a) t2) as (s2 & B1 & B2 & B3).
      refine (B_res t1 t2 _ _ K _ _ _ _); [rewrite A3|rewrite B3|rewrite A3|rewrite B3]; assumption.
  - rewrite st_pop. destruct (pop true a) as [[[[] c]|] st1]; cbn [fst snd] in *; try exact Logic.I.
    pose proof (Q_memoize iv id pos (Some (mpos st1 - pos)) 1 c st1 y) as M. rewrite QQ in M. specialize (M H). destruct M as [(z & M1 & M2)|M]; [left|right; exact M].
    exists z. split; [|exact M2]. change (mpos (set_tbl y st1)) with (mpos st1). rewrite M1. reflexivity.
  - change (mpos (set_tbl y a)) with (mpos a). change (m_tbl (set_tbl y a)) with y. pose proof (G_get (m_tbl a) y id (mpos a) H) as K.
    destruct (t_get ops (m_tbl a) id (mpos a)) as [e1 t1]. destruct (t_get ops y id (mpos a)) as [e2 t2]. cbn [fst snd] in K. destruct K as [[<- K]|K].
    + change (set_tbl t2 (set_tbl y a)) with (set_tbl t2 (set_tbl t1 a)). destruct e1 as [[[len|] cnt cs]|].
      * change (push (KTree id (mpos (set_tbl t2 (set_tbl t1 a))) cnt) (set_tbl t2 (set_tbl t1 a))) with (set_tbl t2 (push (KTree id (mpos (set_tbl t1 a)) cnt) (set_tbl t1 a))). rewrite (st_add t2 cs (push (KTree id (mpos (set_tbl t1 a)) cnt) (set_tbl t1 a))).
        match goal with |- QR (Next (set_ip _ (snd (peek ?u)))) (Next (set_ip _ (snd (peek ?v)))) => change v with (set_tbl t2 u); rewrite (st_peek t2 u); set (w := u) end. cbn [snd].
        apply (Q_set (set_ip l (snd (peek w))) t2). change (G (m_tbl (snd (peek w))) t2). rewrite tbl_peek. subst w.
        match goal with |- G (m_tbl (advance _ _ ?u)) _ => change (G (m_tbl u) t2) end. rewrite tbl_add. exact K.
      * apply Q_fail. apply Q_set. exact K.
      * apply (Q_set (set_ip next (push _ (set_tbl t1 a))) t2). exact K.
    + assert (Z : forall (e : option mentry) (z : mstate) t, exists r : step_res T CS, Rres T CS R t r /\ r <> Crash /\ match e with
        | Some (MEntry (Some len) count cs) => Next (set_ip l (snd (peek (advance bufsz len (add cs (push (KTree id (mpos (set_tbl t z)) count) (set_tbl t z)))))))
        | Some (MEntry None _ _) => fail bufsz ops iv (set_tbl t z)
        | None => Next (set_ip next (push (KTree id (mpos (set_tbl t z)) 0) (set_tbl t z))) end = r).
      { intros e z t. eexists. split; [|split; [|reflexivity]]; destruct e as [[[len|] cnt cs]|]; try discriminate; try apply fail_nocrash; try apply R_refl.
        apply (R_fail bufsz T ops CS R R_refl R_trans R_put iv _ (set_tbl t z)). }
      destruct (Z e1 a t1) as (s1 & A1 & A2 & A3). destruct (Z e2 (set_tbl y a) t2) as (s2 & B1 & B2 & B3).
      refine (B_res t1 t2 _ _ K _ _ _ _); [rewrite A3|rewrite B3|rewrite A3|rewrite B3]; assumption.
  - change (m_stk (set_tbl y a)) with (m_stk a). destruct (m_stk a) as [|[[] c] l1]; try exact Logic.I.
    pose proof (Q_memoize iv id pos (Some (mpos a - pos)) (S count) c (set_stk (SE (KTree id pos (S count)) c :: l1) (m_base a) a) y H) as M. destruct M as [(z & M1 & M2)|M]; [left|right; exact M].
    exists z. split; [|exact M2]. etransitivity; [|exact (f_equal (set_ip next) M1)]. reflexivity.
  - change (m_stk (set_tbl y a)) with (m_stk a). pose proof (Q_loop iv (S (List.length (m_stk a)) * S (List.length (m_stk a))) 0 0 a (set_tbl y a) (Q_set a y H)) as M.
    destruct M as [(z & M1 & M2)|M]; [left|right; exact M]. exists z. split; [|exact M2]. rewrite M1. reflexivity.
  - change (m_stk (set_tbl y a)) with (m_stk a). rewrite st_close. apply (N (set_ip next (tree_close _ id a))). apply tbl_close.
  - rewrite st_pop. destruct (pop false a) as [[[[] c]|] st1]; cbn [fst snd] in *; try exact Logic.I. change (mpos (set_tbl y st1)) with (mpos st1). rewrite st_node. apply (N (set_ip next (add_node iv _ _ _ _ st1))). cbn. rewrite tbl_node. exact Q'.
  - change (mpos (set_tbl y a)) with (mpos a). rewrite st_node. apply (N (set_ip next (add_node iv _ _ _ _ a))). apply tbl_node.
  - rewrite st_pop. destruct (pop true a) as [[[[] c]|] st1]; cbn [fst snd] in *; try exact Logic.I. cbn [m_src m_cs set_tbl mpos].
    destruct (check _ _ _ _ _ _ _) as [cs1 [n|]]; [apply (N (set_ip next (advance bufsz n (set_cs cs1 st1))))|apply (F (set_cs cs1 st1))]; exact QQ.
  - apply (N (set_ip next (set_errs (m_errs a ++ [(mpos a, msg)]) a))). reflexivity.
Qed.
Lemma R_after : forall iv code n st, R (m_tbl st) (m_tbl (state_after (vm_step bufsz ops check iv code) n st)).
Proof.
  intros iv code. induction n as [|n IH]; intro st; cbn [state_after]; [apply R_refl|].
  pose proof (R_step bufsz T ops CS check R R_refl R_trans R_get R_put iv code st) as S. destruct (vm_step bufsz ops check iv code st) as [st1|o st1|]; cbn [Rres] in S.
  - eapply R_trans; [exact S|apply IH].
  - exact S.
  - apply R_refl.
Qed.
Lemma Q_after : forall iv code n a b, Q a b -> Q (state_after (vm_step bufsz ops check iv code) n a) (state_after (vm_step bufsz ops check iv code) n b).
Proof.
  intros iv code. induction n as [|n IH]; intros a b H; [exact H|].
  assert (K : QR (vm_step bufsz ops check iv code a) (vm_step bufsz ops check iv code b) \/ B (m_tbl a) (m_tbl b)).
  { destruct H as [(y & -> & H)|H]; [|right; exact H]. unfold vm_step. change (m_ip (set_tbl y a)) with (m_ip a).
    destruct (decode code (m_ip a)) as [i|]; [|left; exact Logic.I]. apply Q_exec. apply Q_set. exact H. }
  destruct K as [K|K]; [|right; eapply B_mono; [exact K|apply R_after|apply R_after]].
  cbn [state_after]. destruct (vm_step bufsz ops check iv code a) as [a1|o1 a1|]; destruct (vm_step bufsz ops check iv code b) as [b1|o2 b1|]; cbn [QR] in K; try contradiction.
  - apply IH. exact K.
  - right. eapply B_mono; [exact K|apply R_after|apply R_refl].
  - right. eapply B_mono; [exact K|apply R_refl|apply R_after].
  - destruct K as [[_ K]|K]; [left|right]; exact K.
  - exact H.
Qed.
End Two.
